(** The three value policies of the library as instances of [policy]
    (H/ = /repo/include/boost/flyweight/), with their laws.

    User types enter through their constructors: [mk args kids] builds a
    value/key from constructor arguments and copies of flyweights ([None]:
    the constructor threw); [kids v] lists the flyweights stored in it. *)
From Verif Require Export CoreInv.

(** H/detail/default_value_policy.hpp 30-76: the rep is the value and the
    key; *_construct_value do nothing (68-73). *)
Section Default.
  Context {V A : Type} (mk : A → list addr → option V) (kids : V → list addr).
  Definition default_policy : policy V A V V :=
    Policy _ _ _ _ mk (λ v, v) Some (λ _ v, v) kids.

  Lemma default_policy_ok (eqv : V → V → bool) :
    (∀ a ks v, mk a ks = Some v → kids v ≡ₚ ks) →
    policy_ok eqv (λ _, True) default_policy.
  Proof.
    intros Hk. split; [|done]. simpl. intros p ks r Hr. split; [done|]. intros a.
    by rewrite (occ_perm a _ _ (Hk _ _ _ Hr)).
  Qed.
End Default.

(** H/key_value.hpp 194-295, no key extractor: key and, once constructed,
    value. *)
Section Product.
  Context {K V A : Type} (mk : A → list addr → option K) (kids : K → list addr) (val : K → V).
  Record prep := Prep { pr_key : K; pr_val : option V }.
  Definition product_policy : policy K A prep V :=
    Policy _ _ _ _
      (λ a ks, match mk a ks with Some k => Some (Prep k None) | None => None end)   (* 216-223 *)
      pr_key                                                                         (* 238 *)
      pr_val                                                                         (* 240-244 *)
      (λ _ r, match pr_val r with                                                    (* 264-270 *)
              | None => Prep (pr_key r) (Some (val (pr_key r)))
              | Some _ => r
              end)
      (λ r, kids (pr_key r)).

  (** the value, if any, is the one determined by the stored key *)
  Definition product_good (r : prep) : Prop :=
    match pr_val r with Some v => v = val (pr_key r) | None => True end.

  Lemma product_policy_ok (eqv : K → K → bool) :
    (∀ k, eqv k k = true) → (∀ a ks k, mk a ks = Some k → kids k ≡ₚ ks) →
    policy_ok eqv product_good product_policy.
  Proof.
    intros Hr Hk. split; simpl.
    - intros p ks r H. destruct (mk p ks) as [k|] eqn:E; simplify_eq/=. split; [done|].
      intros a. by rewrite (occ_perm a _ _ (Hk _ _ _ E)).
    - intros p ks r H Hn. rewrite Hn. simpl. split_and!; [by eauto|done|apply Hr|done].
  Qed.
End Product.

(** H/key_value.hpp 50-192, with key extractor: key or value.  Arguments are
    either key constructor arguments or a value (lvalue or rvalue). *)
Inductive kv_arg (A V : Type) := FromKey (a : A) | FromValue (v : V).
Global Arguments FromKey {_ _} _.
Global Arguments FromValue {_ _} _.

Section Variant.
  Context {K V A : Type} (mk : A → list addr → option K) (kids : K → list addr)
    (val : K → V) (ext : V → K).
  Definition vrep : Type := K + V.
  Definition variant_policy : policy K (kv_arg A V) vrep V :=
    Policy _ _ _ _
      (λ p ks, match p with
               | FromKey a => match mk a ks with Some k => Some (inl k) | None => None end  (* 61-69 *)
               | FromValue v =>                                                             (* 79-82, 91-94 *)
                   if bool_decide (kids (ext v) = ks) then Some (inl (ext v)) else None
               end)
      (λ r, match r with inl k => k | inr v => ext v end)                                   (* 103-109 *)
      (λ r, match r with inl _ => None | inr v => Some v end)                               (* 111-115 *)
      (λ p r, match r with
              | inl k => match p with
                         | FromKey _ => inr (val k)                                         (* 136-143 *)
                         | FromValue v => inr v                                             (* 145-162 *)
                         end
              | inr _ => r
              end)
      (λ r, match r with inl k => kids k | inr v => kids (ext v) end).

  (** extractor laws required by the documentation: the key extracted from
      the value built from [k] is equivalent to [k] (and holds the same
      flyweights) *)
  Lemma variant_policy_ok (eqv : K → K → bool) :
    (∀ k, eqv k k = true) → (∀ a ks k, mk a ks = Some k → kids k ≡ₚ ks) →
    (∀ k, eqv (ext (val k)) k = true) → (∀ k, kids (ext (val k)) ≡ₚ kids k) →
    policy_ok eqv (λ _, True) variant_policy.
  Proof.
    intros Hr Hk He Hek. split; simpl.
    - intros p ks r H. split; [done|]. destruct p as [a|v].
      + destruct (mk a ks) as [k|] eqn:E; simplify_eq/=. intros b. by rewrite (occ_perm b _ _ (Hk _ _ _ E)).
      + case_bool_decide; simplify_eq/=. done.
    - intros p ks r H Hn. destruct r as [k|v]; [|done]. destruct p as [a|v]; simpl in *.
      + split_and!; [by eauto|done|apply He|]. intros b. by rewrite (occ_perm b _ _ (Hek k)).
      + case_bool_decide; simplify_eq. split_and!; [by eauto|done|apply Hr|done].
  Qed.
End Variant.
