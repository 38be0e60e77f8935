(** The three value policies of [Policies.v] obey the laws used with the
    machine of [Concurrent.v], and a concrete configuration for examples. *)
From Verif Require Export ConcurrentSolo.
From Verif Require Policies Instances.

Section Laws.
  Context {K V A : Type} (eqv : K → K → bool) (Heq : equivalence eqv).
  Context (mk : A → list addr → option K) (kids : K → list addr).
  Context (Hkids : ∀ a ks k, mk a ks = Some k → kids k ≡ₚ ks).

  Lemma default_policy_ok : policy_ok eqv (λ _, True) (Policies.default_policy mk kids).
  Proof.
    split; simpl; [|done]. intros p ks r Hr. split; [done|]. intros a. by rewrite (occ_perm a _ _ (Hkids _ _ _ Hr)).
  Qed.

  Lemma product_policy_ok (val : K → V) : policy_ok eqv (Policies.product_good val) (Policies.product_policy mk kids val).
  Proof.
    split; simpl.
    - intros p ks r H. destruct (mk p ks) as [k|] eqn:E; simplify_eq/=. split; [done|]. intros a. by rewrite (occ_perm a _ _ (Hkids _ _ _ E)).
    - intros p ks r p' ks' r' _ _ _ Hn. rewrite Hn. simpl. split_and!; [by eauto|done|apply Heq|done].
  Qed.

  (** Here a leftover entry may be completed from a value with an equivalent
      key, which must then hold the same flyweights. *)
  Lemma variant_policy_ok (val : K → V) (ext : V → K) :
    (∀ k, eqv (ext (val k)) k = true) → (∀ k, kids (ext (val k)) ≡ₚ kids k) → (∀ k l, eqv k l = true → kids k ≡ₚ kids l) →
    policy_ok eqv (λ _, True) (Policies.variant_policy mk kids val ext).
  Proof.
    intros He Hek Hkk. split; simpl.
    - intros p ks r H. split; [done|]. destruct p as [a|v].
      + destruct (mk a ks) as [k|] eqn:E; simplify_eq/=. intros b. by rewrite (occ_perm b _ _ (Hkids _ _ _ E)).
      + case_bool_decide; simplify_eq/=. done.
    - intros p ks r p' ks' r' H H' E Hn. destruct r' as [k'|v']; [|done]. destruct p as [a|v]; simpl in *.
      + split_and!; [by eauto|done|apply He|]. intros b. by rewrite (occ_perm b _ _ (Hek k')).
      + case_bool_decide; simplify_eq/=. split_and!; [by eauto|done|by apply (eqv_sym _ Heq)|].
        intros b. apply occ_perm. symmetry. by apply Hkk.
  Qed.
End Laws.

(** ** examples *)
Notation ikey := Instances.ikey.
Notation iP := Instances.iP.
Notation ieq := Instances.ieq.
Definition cgood : Policies.prep → Prop := Policies.product_good (λ k : ikey, fst k * fst k).
Lemma ieq_eqv : equivalence ieq.
Proof. exact Instances.ieq_equivalence. Qed.
Lemma iP_laws : policy_ok ieq cgood iP.
Proof.
  apply product_policy_ok; [apply ieq_eqv|]. unfold Instances.imk. intros a ks k H. case_decide; simplify_eq. done.
Qed.

Notation cstate := (Concurrent.state (K:=ikey) (A:=nat) (R:=Policies.prep (K:=ikey) (V:=nat))).
Notation clabel := (Concurrent.label (A:=nat)).
Definition crun (s : cstate) (ls : list clabel) : cstate := match run iP ieq s ls with Next s' => s' | _ => s end.
Definition cdoes (s : cstate) (ls : list clabel) : bool := match run iP ieq s ls with Next _ => true | _ => false end.
Definition cstep (s : cstate) (l : clabel) : cstate := match step iP ieq s l with Next s' => s' | _ => s end.
Definition cgoes (s : cstate) (l : clabel) : bool := match step iP ieq s l with Next _ => true | _ => false end.
Lemma crun_ok s ls : cdoes s ls = true → run iP ieq s ls = Next (crun s ls).
Proof. unfold cdoes, crun. by destruct (run iP ieq s ls). Qed.
Lemma cstep_ok s l : cgoes s l = true → step iP ieq s l = Next (cstep s l).
Proof. unfold cgoes, cstep. by destruct (step iP ieq s l). Qed.
Lemma crun_reachable ls : cdoes init ls = true → reachable iP ieq (crun init ls).
Proof. intros H. exists ls. by apply crun_ok. Qed.

Definition call (t : tid) (o : op) : list clabel := LStart t o :: replicate 30 (LRun t false).
(** a collection pass over the first [n] addresses *)
Definition pass (n : nat) : list clabel :=
  LBegin :: concat (map (λ h, LLook h :: replicate 12 (LRun gc_tid false)) (seq 0 n)) ++ [LEnd].
(** thread 1 creates 0:=7 while thread 2 creates 1:=17 (equivalent) and a pass
    goes on *)
Definition race : list clabel :=
  [LStart 1 (ONew 0 7 []); LStart 2 (ONew 1 17 []); LRun 2 false; LRun 1 false; LRun 2 false; LBegin; LRun 1 false; LLook 0] ++
  concat (replicate 12 [LRun 1 false; LLook 0; LRun gc_tid false; LRun 2 false]) ++ replicate 6 (LRun gc_tid false) ++ [LEnd].
(** then 2:=3, 3:=composite 5 of 0 and 2, copy 4:=3 *)
Definition demo : list clabel :=
  race ++ call 1 (ONew 2 3 []) ++ call 2 (ONew 3 5 [0; 2]) ++ call 1 (OCopy 4 3).
(** the construction of the value for 7 throws *)
Definition oops : list clabel :=
  [LStart 1 (ONew 0 7 []); LRun 1 false; LRun 1 false; LRun 1 true] ++ replicate 5 (LRun 1 false).

