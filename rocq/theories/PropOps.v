(** Properties of comparison, hash, key and stream operators
    (definitions in [Compare.v]). *)
From Verif Require Import CoreRace Compare Instances PropCore.

Section Properties.
  Context {K A R V : Type}.
  Context (P : policy K A R V) (FS : factory K) (cfg : config).
  Context (eqv : K → K → bool) (good : R → Prop).
  Context (Heq : equivalence eqv) (HP : policy_ok eqv good P) (HF : factory_spec eqv FS).
  Context (t0 : tid).

  Notation state := (state (K:=K) (A:=A) (R:=R) FS).
  Implicit Types (s : state).

  Lemma fly_value s x f : fly P s x = Some f → ∃ r, value_of s x = Some (fw_addr f, r) ∧ p_val P r = Some (fw_val f).
  Proof.
    unfold fly. destruct (value_of s x) as [[h r]|]; [|done]. destruct (p_val P r) as [v|] eqn:E; [|done].
    intros [= <-]. simpl. eauto.
  Qed.

  (** C10: equal flyweights have equal hashes; the hash of an object that is
      not assigned, swapped or destroyed does not change *)
  Theorem C10_hash_consistent (ph : addr → nat) (eq lt : V → V → bool) (x y : fw V) :
    cmp_same eq lt Eq x y = true → fly_hash ph x = fly_hash ph y.
  Proof. simpl. intros H%bool_decide_eq_true. unfold fly_hash. by rewrite H. Qed.

  Theorem C10_hash_by_key (ph : addr → nat) s x y fx fy kx ky :
    reachable P FS cfg t0 s → fly P s x = Some fx → fly P s y = Some fy →
    key_of P FS s x = Some kx → key_of P FS s y = Some ky → eqv kx ky = true →
    fly_hash ph fx = fly_hash ph fy.
  Proof.
    intros Hr Hx Hy Hkx Hky He. apply fly_value in Hx as (rx&Hx&_). apply fly_value in Hy as (ry&Hy&_).
    unfold key_of in *. rewrite Hx in Hkx. rewrite Hy in Hky. simplify_eq.
    unfold fly_hash. f_equal. by eapply (sharing P FS cfg eqv good Heq HP HF t0 s x y).
  Qed.

  Theorem C10_hash_stable (ph : addr → nat) s ls s' x f :
    reachable P FS cfg t0 s → sched_ok cfg t0 ls → Forall (λ l, touches x l = false) ls →
    run P FS cfg s ls = Next s' → fly P s x = Some f →
    ∃ f', fly P s' x = Some f' ∧ fly_hash ph f' = fly_hash ph f.
  Proof.
    intros Hr Hok Ht Hrun Hf. apply fly_value in Hf as (r&Hx&Hv).
    pose proof (stability P FS cfg eqv good Heq HP HF t0 s ls s' x _ _ Hr Hok Ht Hrun Hx) as Hx'.
    exists (Fw (fw_addr f) (fw_val f)). split; [|done]. unfold fly. by rewrite Hx', Hv.
  Qed.

  (** C11: if the user's == holds exactly for values with equivalent keys,
      all six operators agree with those on values *)
  Theorem C11_comparison_same_type (eq lt : V → V → bool) s x y fx fy kx ky c :
    reachable P FS cfg t0 s → fly P s x = Some fx → fly P s y = Some fy →
    key_of P FS s x = Some kx → key_of P FS s y = Some ky →
    (eqv kx ky = true ↔ eq (fw_val fx) (fw_val fy) = true) →
    cmp_same eq lt c fx fy = cmp_values eq lt lt c (fw_val fx) (fw_val fy).
  Proof.
    intros Hr Hx Hy Hkx Hky He. apply fly_value in Hx as (rx&Hx&_). apply fly_value in Hy as (ry&Hy&_).
    unfold key_of in *. rewrite Hx in Hkx. rewrite Hy in Hky. simplify_eq.
    pose proof (sharing P FS cfg eqv good Heq HP HF t0 s x y _ _ _ _ Hr Hx Hy) as Hsh.
    assert (E : bool_decide (fw_addr fx = fw_addr fy) = eq (fw_val fx) (fw_val fy)).
    { destruct (eq (fw_val fx) (fw_val fy)) eqn:E.
      - apply bool_decide_eq_true, Hsh, He. done.
      - apply bool_decide_eq_false. intros H%Hsh%He. done. }
    destruct c; simpl; by rewrite ?E.
  Qed.

  (** x==y implies that the values are the same object, hence equal for any
      reflexive ==, whatever the relation to the factory's equivalence *)
  Theorem C11_equal_same_value (eq lt : V → V → bool) s x y fx fy :
    fly P s x = Some fx → fly P s y = Some fy → cmp_same eq lt Eq fx fy = true →
    fw_val fx = fw_val fy.
  Proof.
    simpl. intros Hx Hy He%bool_decide_eq_true. unfold fly, value_of in *.
    destruct (vars s !! x) as [[hx|]|]; try done. destruct (vars s !! y) as [[hy|]|]; try done.
    destruct (heap s !! hx) as [nx|] eqn:Ex; [|done]. destruct (heap s !! hy) as [ny|] eqn:Ey; [|done].
    destruct (p_val P (n_rep nx)) eqn:Vx; [|done]. destruct (p_val P (n_rep ny)) eqn:Vy; [|done].
    simplify_eq. simpl in He. subst. congruence.
  Qed.

  Theorem C11_comparison_mixed {V1 V2} (eq12 lt12 : V1 → V2 → bool) (lt21 : V2 → V1 → bool) c x y :
    cmp_mixed eq12 lt12 lt21 c x y = cmp_values eq12 lt12 lt21 c (get x) (get y).
  Proof. by destruct c, x, y. Qed.

  (** mutual consistency, for user operators == and < of which < is a strict
      total order up to == *)
  Theorem C11_consistent (eq lt : V → V → bool) s x y fx fy kx ky :
    reachable P FS cfg t0 s → fly P s x = Some fx → fly P s y = Some fy →
    key_of P FS s x = Some kx → key_of P FS s y = Some ky →
    (eqv kx ky = true ↔ eq (fw_val fx) (fw_val fy) = true) →
    (∀ u v, lt u v = true → lt v u = false) →
    (∀ u v, eq u v = true ↔ lt u v = false ∧ lt v u = false) →
    let op c := cmp_same eq lt c fx fy in
    op Ne = negb (op Eq) ∧ op Le = op Lt || op Eq ∧ op Ge = op Gt || op Eq ∧
    op Gt = negb (op Le) ∧ op Lt = negb (op Ge) ∧
    b2n (op Lt) + b2n (op Eq) + b2n (op Gt) = 1.
  Proof.
    intros Hr Hx Hy Hkx Hky He Has Hto op. unfold op.
    rewrite !(C11_comparison_same_type eq lt s x y fx fy kx ky) by done. simpl.
    specialize (Has (fw_val fx) (fw_val fy)). specialize (Hto (fw_val fx) (fw_val fy)).
    destruct (lt (fw_val fx) (fw_val fy)), (lt (fw_val fy) (fw_val fx)), (eq (fw_val fx) (fw_val fy));
      simpl; first [by split_and! | exfalso; naive_solver].
  Qed.

  (** C47: output *)
  Theorem C47_output {S} (wr : S → V → S) st s x f :
    fly P s x = Some f → stream_out P FS wr st s x = Some (wr st (fw_val f)).
  Proof. intros H. unfold stream_out. by rewrite H. Qed.

  (** C08/C47: assignment from arguments *)
  Lemma assign_from_spec s t x tmp p ys cs1 cs2 cs3 s' b :
    reachable P FS cfg t0 s → (lck cfg = false → t = t0) → x ≠ tmp →
    assign_from P FS cfg s t x tmp p ys cs1 cs2 cs3 = Some (s', b) →
    if b then ∃ ks r k, Forall2 (λ y h, vars s !! y = Some (Some h)) ys ks ∧ p_make P p ks = Some r ∧
        key_of P FS s' x = Some k ∧ eqv k (p_key P r) = true ∧
        ∀ z a, z ≠ x → value_of s z = Some a → value_of s' z = Some a
    else ∀ z, value_of s' z = value_of s z.
  Proof.
    intros Hr Hal Hne. unfold assign_from, api_call.
    destruct (step P FS cfg s (LStart t (ONew tmp p ys))) as [s1| |] eqn:E1; [|done..].
    destruct (run P FS cfg s1 (map (LRun t) cs1)) as [s2| |] eqn:E2; [|done..].
    destruct (stack s2 t) eqn:E3; [|done].
    pose proof (λ s3 s4 s5 s6, assign_value P FS cfg eqv good Heq HP HF t0 s t x tmp p ys s1 cs1 s2 s3 cs2 s4 s5 cs3 s6
      Hr Hal Hne E1 E2 E3) as Hav.
    destruct (vars s2 !! tmp) as [o|] eqn:E4.
    - destruct (step P FS cfg s2 (LStart t (OAssign x tmp))) as [s3| |] eqn:E5; [|done..].
      destruct (run P FS cfg s3 (map (LRun t) cs2)) as [s4| |] eqn:E6; [|done..].
      destruct (stack s4 t) eqn:E7; [|done].
      destruct (step P FS cfg s4 (LStart t (ODestroy tmp))) as [s5| |] eqn:E8; [|done..].
      destruct (run P FS cfg s5 (map (LRun t) cs3)) as [s6| |] eqn:E9; [|done..].
      destruct (stack s6 t) eqn:E10; [|done]. intros [= <- <-]. by eapply Hav.
    - intros [= <- <-]. by apply (Hav s s s s).
  Qed.

  (** input: the flyweight gets (a value equivalent to) whatever the
      extraction left in a plain variable initialised with its old value;
      other flyweights keep theirs; if creating the new value throws,
      nothing changes *)
  Theorem C47_input {S} (rd : S → V → S * V) (arg : V → A) st s t x tmp cs1 cs2 cs3 s' b st' f :
    reachable P FS cfg t0 s → (lck cfg = false → t = t0) → x ≠ tmp → fly P s x = Some f →
    stream_in P FS cfg rd arg st s t x tmp cs1 cs2 cs3 = Some (s', b, st') →
    st' = fst (rd st (fw_val f)) ∧
    if b then
      (∃ r k, p_make P (arg (snd (rd st (fw_val f)))) [] = Some r ∧
         key_of P FS s' x = Some k ∧ eqv k (p_key P r) = true) ∧
      (∀ z a, z ≠ x → value_of s z = Some a → value_of s' z = Some a)
    else ∀ z, value_of s' z = value_of s z.
  Proof.
    intros Hr Hal Hne Hf. unfold stream_in. rewrite Hf. destruct (rd st (fw_val f)) as [st1 v] eqn:Erd.
    destruct (assign_from P FS cfg s t x tmp (arg v) [] cs1 cs2 cs3) as [[s1 b1]|] eqn:E; [|done].
    intros [= <- <- <-]. split; [done|].
    pose proof (assign_from_spec _ _ _ _ _ _ _ _ _ _ _ Hr Hal Hne E) as H. destruct b1; [|exact H].
    destruct H as (ks&r&k&Hks&Hm&Hk&He&Hz). inversion Hks; subst. simpl. split; [eauto|done].
  Qed.

  (** C48: get_key() is equivalent to the key the observer of C01 keeps *)
  Theorem C48_get_key ls s x k :
    sched_ok cfg t0 ls → run P FS cfg (init FS) ls = Next s → key_of P FS s x = Some k →
    ∃ k', o_vals (watch P FS cfg (init FS) (Obs ∅ ∅) ls) !! x = Some k' ∧ eqv k k' = true.
  Proof.
    intros Hok Hrun Hk. pose proof (observer_transparency P FS cfg eqv good Heq HP HF t0 ls s x Hok Hrun) as H.
    unfold key_of in Hk. destruct (value_of s x) as [[h r]|]; [|done]. simplify_eq. done.
  Qed.
End Properties.

(** C48, the three value policies: what get_key() returns relative to
    get() *)
Section Policies.
  Context {K A V : Type} (mk : A → list addr → option K) (kids : K → list addr).

  (** no key_value: the key is the value *)
  Theorem C48_default (FS : factory K) (s : state (K:=K) (A:=A) (R:=K) FS) x k :
    key_of (default_policy mk kids) FS s x = Some k ↔
    ∃ h, fly (default_policy mk kids) s x = Some (Fw h k).
  Proof.
    unfold key_of, fly. destruct (value_of s x) as [[h r]|]; simpl; [|by split; [|intros [??]]].
    split; [intros [= <-]; eauto|intros [? [= _ <-]]; done].
  Qed.

  (** key_value without extractor: the value is the one of the stored key *)
  Theorem C48_product (val : K → V) (FS : factory K) cfg eqv t0 (s : state FS) x :
    equivalence eqv → factory_spec eqv FS → (∀ a ks k, mk a ks = Some k → kids k ≡ₚ ks) →
    reachable (product_policy mk kids val) FS cfg t0 s → is_Some (value_of s x) →
    ∃ h k, key_of (product_policy mk kids val) FS s x = Some k ∧
      fly (product_policy mk kids val) s x = Some (Fw h (val k)).
  Proof.
    intros Heq HF Hk Hr [[h r] Hx].
    pose proof (product_policy_ok mk kids val eqv (eqv_refl _ Heq) Hk) as HP.
    assert (Hv : vars s !! x = Some (Some h)).
    { unfold value_of in Hx. destruct (vars s !! x) as [[g|]|]; try done. destruct (heap s !! g); by simplify_eq. }
    destruct (no_dangling _ FS cfg eqv _ Heq HP HF t0 s x h Hr Hv) as (r'&Hx'&[v Hval]&Hg).
    rewrite Hx in Hx'. simplify_eq. exists h, (pr_key r'). unfold key_of, fly. rewrite Hx. simpl in *.
    rewrite Hval. unfold product_good in Hg. rewrite Hval in Hg. by subst.
  Qed.

  (** key_value with extractor: the key is extracted from the value *)
  Theorem C48_variant (val : K → V) (ext : V → K) (FS : factory K) cfg eqv t0 (s : state FS) x :
    equivalence eqv → factory_spec eqv FS → (∀ a ks k, mk a ks = Some k → kids k ≡ₚ ks) →
    (∀ k, eqv (ext (val k)) k = true) → (∀ k, kids (ext (val k)) ≡ₚ kids k) →
    reachable (variant_policy mk kids val ext) FS cfg t0 s → is_Some (value_of s x) →
    ∃ h v, fly (variant_policy mk kids val ext) s x = Some (Fw h v) ∧
      key_of (variant_policy mk kids val ext) FS s x = Some (ext v).
  Proof.
    intros Heq HF Hk He Hek Hr [[h r] Hx].
    pose proof (variant_policy_ok mk kids val ext eqv (eqv_refl _ Heq) Hk He Hek) as HP.
    assert (Hv : vars s !! x = Some (Some h)).
    { unfold value_of in Hx. destruct (vars s !! x) as [[g|]|]; try done. destruct (heap s !! g); by simplify_eq. }
    destruct (no_dangling _ FS cfg eqv _ Heq HP HF t0 s x h Hr Hv) as (r'&Hx'&[v Hval]&Hg).
    rewrite Hx in Hx'. simplify_eq. exists h, v. unfold key_of, fly. rewrite Hx. simpl in *.
    rewrite Hval. split; [done|]. destruct r'; by simplify_eq/=.
  Qed.
End Policies.

(** C11: without the assumption the operators on flyweights and on values
    may disagree: with key_value two non-equivalent keys can have equal
    values *)
Theorem C11_without_assumption_refuted :
  ∃ (s : state iFS) x y fx fy, reachable iP iFS rc 0 s ∧ fly iP s x = Some fx ∧ fly iP s y = Some fy ∧
    cmp_same Nat.eqb Nat.ltb Eq fx fy = false ∧ cmp_values Nat.eqb Nat.ltb Nat.ltb Eq (fw_val fx) (fw_val fy) = true.
Proof.
  exists (final iP iFS rc (demo ++ call 1 (ONew 9 5 []) 109)), 3, 9, (Fw 103 25), (Fw 109 25).
  split; [by apply final_reachable; vm_compute|]. by vm_compute.
Qed.

(** ** Concrete cases *)
Example C10_example : reachable iP iFS rc 0 ex ∧ fly iP ex 0 = Some (Fw 100 49) ∧ fly iP ex 1 = Some (Fw 100 49) ∧
  key_of iP iFS ex 0 = Some (7, []) ∧ cmp_same Nat.eqb Nat.ltb Eq (Fw 100 49) (Fw 100 49) = true ∧
  fly iP ex 2 = Some (Fw 102 9).
Proof. split; [exact ex_reachable|]. by vm_compute. Qed.
Example C11_example : reachable iP iFS rc 0 ex ∧ fly iP ex 0 = Some (Fw 100 49) ∧ fly iP ex 2 = Some (Fw 102 9) ∧
  key_of iP iFS ex 0 = Some (7, []) ∧ key_of iP iFS ex 2 = Some (3, []) ∧
  (ieq (7, []) (3, []) = true ↔ Nat.eqb 49 9 = true) ∧
  cmp_same Nat.eqb Nat.ltb Gt (Fw 100 49) (Fw 102 9) = true.
Proof. split; [exact ex_reachable|]. by vm_compute. Qed.
Example C11_mixed_example : cmp_mixed Nat.eqb Nat.ltb Nat.ltb Le (Fly (Fw 100 49)) (Plain 60) = true ∧
  cmp_mixed Nat.eqb Nat.ltb Nat.ltb Gt (Plain 60) (Fly (Fw 100 49)) = true.
Proof. done. Qed.
(** extraction of a number from a stream of numbers; the constructor takes
    the number *)
Example C47_example : reachable iP iFS rc 0 ex ∧ fly iP ex 0 = Some (Fw 100 49) ∧
  match stream_in iP iFS rc (λ st v, match st with [] => ([], v) | w :: st => (st, w) end) (λ v, v) [8; 9] ex 1 0 50
    (replicate 20 (Choice 120 false)) (replicate 5 (Choice 0 false)) (replicate 5 (Choice 0 false)) with
  | Some (s', b, st') => b = true ∧ st' = [9] ∧ value_of s' 0 = Some (120, Prep (8, []) (Some 64)) ∧
      value_of s' 1 = value_of ex 1
  | None => False
  end.
Proof. split; [exact ex_reachable|]. by vm_compute. Qed.
Example C48_example : reachable iP iFS rc 0 ex ∧ is_Some (value_of ex 3) ∧ key_of iP iFS ex 3 = Some (5, [100; 102]).
Proof. split; [exact ex_reachable|]. vm_compute. eauto. Qed.
(** a flyweight with key extractor: employee number -> record *)
Definition vP : policy nat (kv_arg nat (nat * nat)) (vrep (K:=nat) (V:=nat * nat)) (nat * nat) :=
  variant_policy (λ a ks, match ks with [] => Some a | _ => None end) (λ _, []) (λ k, (k, 2 * k)) fst.
Definition sFS : factory nat := set_factory Nat.ltb (λ t, t).
Definition vdemo : list (label (A:=kv_arg nat (nat * nat))) :=
  LStart 1 (ONew 0 (FromKey 4) []) :: replicate 20 (LRun 1 (Choice 100 false)) ++
  LStart 1 (ONew 1 (FromValue (4, 77)) []) :: replicate 20 (LRun 1 (Choice 101 false)) ++
  LStart 1 (ONew 2 (FromValue (5, 78)) []) :: replicate 20 (LRun 1 (Choice 102 false)).
Example C48_variant_example : reachable vP sFS rc 0 (final vP sFS rc vdemo) ∧
  fly vP (final vP sFS rc vdemo) 1 = Some (Fw 100 (4, 8)) ∧ fly vP (final vP sFS rc vdemo) 2 = Some (Fw 102 (5, 78)) ∧
  key_of vP sFS (final vP sFS rc vdemo) 2 = Some 5.
Proof. split; [by apply final_reachable; vm_compute|]. by vm_compute. Qed.

Print Assumptions C10_hash_consistent.
Print Assumptions C10_hash_by_key.
Print Assumptions C10_hash_stable.
Print Assumptions C11_comparison_same_type.
Print Assumptions C11_equal_same_value.
Print Assumptions C11_comparison_mixed.
Print Assumptions C11_consistent.
Print Assumptions C11_without_assumption_refuted.
Print Assumptions C47_output.
Print Assumptions C47_input.
Print Assumptions C48_get_key.
Print Assumptions C48_default.
Print Assumptions C48_product.
Print Assumptions C48_variant.
