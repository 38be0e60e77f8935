(** C61: flyweights inside the values of other flyweights (composite values,
    example/composite.cpp 37-46, 80-128, example/html.cpp), reached with get() and
    copied out. *)
From Verif Require Import CoreRace Instances.

Section Spec.
  Context {K A R V : Type} (P : policy K A R V) (FS : factory K).
  Notation state := (state (R:=R) (K:=K) (A:=A) FS).

  (** [part_of s v path w]: from the value [v] (address and contents) the
      flyweight number [j] inside it, and so on along [path], leads to [w]. *)
  Inductive part_of (s : state) : addr * R → list nat → addr * R → Prop :=
  | part_here v : part_of s v [] v
  | part_in h r j path a n w : p_kids P r !! j = Some a → heap s !! a = Some n →
      part_of s (a, n_rep n) path w → part_of s (h, r) (j :: path) w.
End Spec.

Section Inner.
  Context {K A R V : Type}.
  Context (P : policy K A R V) (FS : factory K) (cfg : config).
  Context (eqv : K → K → bool) (good : R → Prop).
  Context (Heq : equivalence eqv) (HP : policy_ok eqv good P) (HF : factory_spec eqv FS).
  Context (t0 : tid).

  Notation state := (state (R:=R) (K:=K) (A:=A) FS).
  Notation Inv := (Inv P FS cfg eqv good HF t0).
  Notation allowed := (allowed cfg t0).
  Notation cnt := (cnt P FS).
  Notation step := (step P FS cfg).
  Notation run := (run P FS cfg).
  Notation reachable := (reachable P FS cfg t0).
  Notation part_of := (part_of P FS).
  Notation inner := (inner P FS).
  Implicit Types (s : state).

  Lemma inner_part s path : Inv s → ∀ h n h' n', entry s h = Some n → inner s h path = Some (Some h') → entry s h' = Some n' →
    part_of s (h, n_rep n) path (h', n_rep n').
  Proof.
    intros HI. induction path as [|j path IH]; intros h n h' n' Hn; simpl.
    - intros [= ->] Hn'. assert (n' = n) as -> by congruence. constructor.
    - rewrite Hn. destruct (p_val P (n_rep n)); [|done]. destruct (p_kids P (n_rep n) !! j) as [a|] eqn:Hj; [|done]. intros Hin Hn'.
      destruct (i_hnd _ _ _ _ _ (i_C _ _ _ _ _ _ _ _ HI) a) as (m&Hm&_); [eapply (kid_cnt P FS s h n); [done|by eapply elem_of_list_lookup_2]|].
      eapply part_in; [done|by apply entry_heap in Hm as [??]|by apply IH].
  Qed.
  Lemma part_inner s v path w : part_of s v path w → Inv s → ∀ n, 0 < cnt s v.1 → entry s v.1 = Some n → n_rep n = v.2 →
    inner s v.1 path = Some (Some w.1) ∧ 0 < cnt s w.1 ∧ ∃ n', entry s w.1 = Some n' ∧ n_rep n' = w.2.
  Proof.
    intros Hp HI. induction Hp as [v|h r j path a m w Hj Hm Hp IH]; intros n Hc Hn Hr; simpl in *; [eauto|].
    destruct (i_hnd _ _ _ _ _ (i_C _ _ _ _ _ _ _ _ HI) h Hc) as (n1&Hn1&v1&Hv1). assert (n1 = n) as -> by congruence.
    rewrite Hn, Hv1, Hr, Hj. rewrite <- Hr in Hj. apply elem_of_list_lookup_2 in Hj.
    assert (Ha : 0 < cnt s a) by (by eapply kid_cnt).
    destruct (i_hnd _ _ _ _ _ (i_C _ _ _ _ _ _ _ _ HI) a Ha) as (m1&Hm1&_).
    assert (m1 = m) as -> by (apply entry_heap in Hm1 as [??]; congruence). by apply (IH m).
  Qed.

  (** what is referenced stays as it is in the next step *)
  Lemma kept_step s l s' h n : Inv s → allowed (label_tid l) → step s l = Next s' → 0 < cnt s h → entry s h = Some n →
    ∃ n', entry s' h = Some n' ∧ n_rep n' = n_rep n.
  Proof.
    intros HI Hal Hs Hc Hn. destruct (i_hnd _ _ _ _ _ (i_C _ _ _ _ _ _ _ _ HI) h Hc) as (n1&Hn1&Hd). assert (n1 = n) as -> by congruence.
    destruct (eff_step P FS cfg eqv good Heq HP HF t0 _ _ _ HI Hal Hs)
      as [oe Hsh _ Hv _|t c y p r0 rest a -> Hst Ha _ He Hvars _
         |t c y h' p ks k rest m -> Hst Hm Hv _ _ _ He Hvars _
         |t c i rest h' m -> Hst _ Hm Hc0 He Hvars _].
    - destruct Hsh as [H1 _]. destruct (H1 _ _ Hn) as (m&Hm&Hmr&_). eauto.
    - exists n. rewrite He, decide_False; [done|]. intros ->. apply entry_heap in Hn as [Hn _]. congruence.
    - exists n. rewrite He, decide_False; [done|]. intros ->. assert (m = n) as -> by congruence. destruct Hd; congruence.
    - exists n. rewrite He, decide_False; [done|]. intros ->. lia.
  Qed.
  Lemma part_step s l s' v path w : part_of s v path w → Inv s → allowed (label_tid l) → step s l = Next s' →
    ∀ n, 0 < cnt s v.1 → entry s v.1 = Some n → n_rep n = v.2 → part_of s' v path w.
  Proof.
    intros Hp HI Hal Hs. induction Hp as [v|h r j path a m w Hj Hm Hp IH]; intros n Hc Hn Hr; simpl in *; [constructor|].
    assert (Hk := Hj). rewrite <- Hr in Hk. apply elem_of_list_lookup_2 in Hk.
    assert (Ha : 0 < cnt s a) by (by eapply kid_cnt).
    destruct (i_hnd _ _ _ _ _ (i_C _ _ _ _ _ _ _ _ HI) a Ha) as (m1&Hm1&_).
    assert (m1 = m) as -> by (apply entry_heap in Hm1 as [??]; congruence).
    destruct (kept_step s l s' a m HI Hal Hs Ha Hm1) as (m'&Hm'&Hr').
    eapply part_in; [done|by apply entry_heap in Hm' as [??]|]. rewrite Hr'. by apply (IH m).
  Qed.

  Lemma reach_start s t o s' : reachable s → allowed t → step s (LStart t o) = Next s' → reachable s'.
  Proof. intros Hr Ha. by apply (reach_step P FS cfg t0 s (LStart t o) s' Hr). Qed.

  (** ** C61 *)

  (** Copying a flyweight found inside a value: the new object has the address
      and the contents of the one inside; nothing else changes but the count
      of that entry. *)
  Theorem C61_inner s t x y path s' :
    reachable s → (lck cfg = false → t = t0) → step s (LStart t (OInner x y path)) = Next s' →
    ∃ v w, value_of s y = Some v ∧ part_of s v path w ∧ value_of s' x = Some w ∧ value_of s x = None ∧
      (∀ z, z ≠ x → value_of s' z = value_of s z) ∧ (∀ u, stack s' u = stack s u) ∧ lock s' = lock s ∧ cont s' = cont s ∧
      log s' = EvNew x (p_key P w.2) :: log s ∧
      (∀ b, entry s b = None → entry s' b = None) ∧
      ∀ b n, entry s b = Some n → ∃ n', entry s' b = Some n' ∧ n_rep n' = n_rep n ∧ n_del n' = n_del n ∧
        n_ref n' = (n_ref n + (if trk cfg && bool_decide (b = w.1) then 1 else 0))%Z.
  Proof.
    intros Hre Hal Hs. pose proof (reach_inv P FS cfg eqv good Heq HP HF t0 s Hre) as HI.
    pose proof (reach_start s _ _ s' Hre Hal Hs) as Hre'. pose proof (reach_inv P FS cfg eqv good Heq HP HF t0 s' Hre') as HI'.
    simpl in Hs. destruct (stack s t); [|done]. simpl in Hs. destruct (vars s !! x) eqn:Hx; [done|].
    destruct (live s y) as [h0|] eqn:Hy; [|done]. destruct (live_entry P FS cfg eqv good HF t0 s y h0 HI Hy) as (n0&Hn0&_).
    destruct (inner_live P FS cfg eqv good HF t0 s y h0 path HI Hy) as [Hin|(h&n&Hin&_&Hn&_)]; rewrite Hin in Hs; [done|]. rewrite Hn in Hs.
    pose proof (inner_part s path HI h0 n0 h n Hn0 Hin Hn) as Hp. apply live_vars in Hy.
    assert (Hh : heap s !! h = Some n ∧ n_linked n = true) by (by apply entry_heap). destruct Hh as [Hh Hl].
    assert (Hh0 : heap s !! h0 = Some n0) by (by apply entry_heap in Hn0 as [??]).
    exists (h0, n_rep n0), (h, n_rep n). split; [unfold value_of; by rewrite Hy, Hh0|]. split; [done|]. simpl.
    assert (Hvx : value_of s x = None) by (unfold value_of; by rewrite Hx).
    unfold copy_handle in Hs. destruct (trk cfg) eqn:Et; simpl.
    - rewrite Hn in Hs. simplify_eq. simpl.
      assert (Hval : ∀ z, vars s !! z ≠ None → value_of (set_vars (<[x:=Some h]> (vars s)) (put h (with_ref n (n_ref n + 1)) s)) z = value_of s z).
      { intros z Hz. assert (z ≠ x) by congruence. unfold value_of. simpl. rewrite lookup_insert_ne by done. destruct (vars s !! z) as [[b|]|]; [|done..].
        destruct (decide (b = h)) as [->|Hne]; [by rewrite lookup_insert, Hh|by rewrite lookup_insert_ne]. }
      split_and!; try done.
      + unfold value_of. simpl. by rewrite !lookup_insert.
      + intros z Hz. destruct (vars s !! z) eqn:Ez; [by apply Hval; congruence|]. unfold value_of. simpl. by rewrite lookup_insert_ne, Ez.
      + intros b Hb. unfold entry in *. simpl. destruct (decide (b = h)) as [->|Hne]; [by rewrite Hh, Hl in Hb|by rewrite lookup_insert_ne].
      + intros b m Hm. unfold entry in *. simpl. case_bool_decide as Hb.
        * subst b. rewrite lookup_insert. simpl. rewrite Hl. rewrite Hn in Hm. simplify_eq. by eexists.
        * rewrite lookup_insert_ne by done. exists m. split_and!; [done..|lia].
    - simplify_eq. simpl. split_and!; try done.
      + unfold value_of. simpl. by rewrite lookup_insert, Hh.
      + intros z Hz. unfold value_of. simpl. by rewrite lookup_insert_ne.
      + intros b m Hm. exists m. split_and!; [done..|lia].
  Qed.

  (** It can always be done. *)
  Theorem C61_enabled s t x y path v w :
    reachable s → (lck cfg = false → t = t0) → stack s t = [] → vars s !! x = None →
    value_of s y = Some v → part_of s v path w → ∃ s', step s (LStart t (OInner x y path)) = Next s'.
  Proof.
    intros Hre Hal Hst Hx Hy Hp. pose proof (reach_inv P FS cfg eqv good Heq HP HF t0 s Hre) as HI. destruct v as [h0 r0].
    apply (value_of_var P FS cfg eqv good HF t0) in Hy as (Hy&n0&Hn0&Hr0&_); [|done].
    destruct (part_inner _ _ _ _ Hp HI n0) as (Hin&_&n&Hn&_); [by eapply var_cnt|done|done|].
    simpl in *. rewrite Hst, Hx. unfold live. rewrite Hy, Hin, Hn. unfold copy_handle. rewrite Hn. destruct (trk cfg); eauto.
  Qed.

  (** What is inside a value stays there, and unchanged, while the flyweight
      that holds the value is not assigned to, swapped or destroyed. *)
  Theorem C61_stable s ls s' y v path w :
    reachable s → sched_ok cfg t0 ls → Forall (λ l, touches y l = false) ls → run s ls = Next s' →
    value_of s y = Some v → part_of s v path w → value_of s' y = Some v ∧ part_of s' v path w.
  Proof.
    intros Hre Hok Hto Hrun Hy Hp. pose proof (reach_inv P FS cfg eqv good Heq HP HF t0 s Hre) as HI. destruct v as [h r].
    split; [exact (stability P FS cfg eqv good Heq HP HF t0 s ls s' y h r Hre Hok Hto Hrun Hy)|].
    apply (value_of_var P FS cfg eqv good HF t0) in Hy as (Hy&n&Hn&Hr&Hd); [|done].
    enough (stays FS y h r (n_stamp n) s' ∧ part_of s' (h, r) path w) by naive_solver.
    eapply (run_ind P FS cfg eqv good Heq HP HF t0 (λ s, stays FS y h r (n_stamp n) s ∧ part_of s (h, r) path w)
      (λ l, touches y l = false)); [|done|by eapply sched_allowed|done| |done].
    - intros s1 l s2 HI1 Hl Hto1 [Hst Hp1] Hs1. split; [by eapply stays_step|]. destruct Hst as (Hx1&n1&Hn1&Hr1&_).
      eapply part_step; [done|done|done|done|by eapply var_cnt|done|done].
    - split; [split; eauto|done].
  Qed.

  (** The copy is independent of the object it was found in: whatever is done
      afterwards, short of touching the copy, it keeps that value, even if
      the other one is destroyed. *)
  Theorem C61_outlives s t x y path s1 ls s2 :
    reachable s → (lck cfg = false → t = t0) → step s (LStart t (OInner x y path)) = Next s1 →
    sched_ok cfg t0 ls → Forall (λ l, touches x l = false) ls → run s1 ls = Next s2 →
    ∃ v w, value_of s y = Some v ∧ part_of s v path w ∧ value_of s2 x = Some w ∧ is_Some (p_val P w.2).
  Proof.
    intros Hre Hal Hs Hok Hto Hrun. destruct (C61_inner _ _ _ _ _ _ Hre Hal Hs) as (v&[h r]&Hv&Hp&Hx&_).
    pose proof (reach_start s _ _ s1 Hre Hal Hs) as Hre1.
    pose proof (stability P FS cfg eqv good Heq HP HF t0 s1 ls s2 x h r Hre1 Hok Hto Hrun Hx) as Hx2.
    exists v, (h, r). split_and!; [done..|]. pose proof (reach_run P FS cfg t0 s1 ls s2 Hre1 Hok Hrun) as Hre2.
    apply (value_of_var P FS cfg eqv good HF t0) in Hx2 as (_&n&_&<-&?); [done|]. by apply (reach_inv P FS cfg eqv good Heq HP HF t0).
  Qed.

  (** x = x.get().child: refcounted.hpp 124-128 takes the right-hand side by
      value (a copy [tmp]), swaps and destroys the old handle with [tmp]; the
      value that held the child may be destroyed then, the result is still the
      child. *)
  Theorem C61_descend s t x tmp path s1 s2 s3 ls s4 :
    reachable s → (lck cfg = false → t = t0) → tmp ≠ x →
    step s (LStart t (OInner tmp x path)) = Next s1 → step s1 (LStart t (OSwap x tmp)) = Next s2 →
    step s2 (LStart t (ODestroy tmp)) = Next s3 →
    sched_ok cfg t0 ls → Forall (λ l, touches x l = false) ls → run s3 ls = Next s4 →
    ∃ v w, value_of s x = Some v ∧ part_of s v path w ∧ value_of s4 x = Some w ∧ is_Some (p_val P w.2).
  Proof.
    intros Hre Hal Hne Hs1 Hs2 Hs3 Hok Hto Hrun. destruct (C61_inner _ _ _ _ _ _ Hre Hal Hs1) as (v&[h r]&Hv&Hp&Hx&_).
    pose proof (reach_start s _ _ s1 Hre Hal Hs1) as Hre1. pose proof (reach_start s1 _ _ s2 Hre1 Hal Hs2) as Hre2.
    pose proof (reach_start s2 _ _ s3 Hre2 Hal Hs3) as Hre3.
    destruct (swap_step P FS cfg eqv good Heq HP HF t0 s1 t x tmp s2 Hre1 Hal Hs2) as (Hsw&_).
    assert (H3 : run s2 [LStart t (ODestroy tmp)] = Next s3) by (cbn [Core.run]; by rewrite Hs3).
    assert (Hx3 : value_of s3 x = Some (h, r)).
    { eapply (stability P FS cfg eqv good Heq HP HF t0 s2 [LStart t (ODestroy tmp)] s3 x h r); [done| | |done|congruence].
      - intros E. constructor; [by apply Hal|done].
      - constructor; [by apply bool_decide_eq_false_2|done]. }
    pose proof (stability P FS cfg eqv good Heq HP HF t0 s3 ls s4 x h r Hre3 Hok Hto Hrun Hx3) as Hx4.
    exists v, (h, r). split_and!; [done..|]. pose proof (reach_run P FS cfg t0 s3 ls s4 Hre3 Hok Hrun) as Hre4.
    apply (value_of_var P FS cfg eqv good HF t0) in Hx4 as (_&n&_&<-&?); [done|]. by apply (reach_inv P FS cfg eqv good Heq HP HF t0).
  Qed.

  (** Nothing is inside itself, so reading the parts of a value ends: a chain
      has at most as many members as there are entries. *)
  Theorem C61_well_founded s y v path w :
    reachable s → value_of s y = Some v → part_of s v path w → path ≠ [] → w.1 ≠ v.1 ∧ length path < size (heap s).
  Proof.
    intros Hre Hy Hp Hne. pose proof (reach_inv P FS cfg eqv good Heq HP HF t0 s Hre) as HI. destruct v as [h r].
    apply (value_of_var P FS cfg eqv good HF t0) in Hy as (Hy&n&Hn&Hr&Hd); [|done].
    assert (G : ∀ v path w, part_of s v path w → ∀ n, 0 < cnt s v.1 → entry s v.1 = Some n → n_rep n = v.2 →
      ∃ l : list addr, length l = S (length path) ∧ NoDup l ∧ w.1 ∈ l ∧ (path ≠ [] → w.1 ≠ v.1) ∧
        ∀ a, a ∈ l → ∃ m, entry s a = Some m ∧ (a = v.1 ∨ n_stamp m < n_stamp n)).
    { clear -HI. intros v path w Hp. induction Hp as [v|h r j path a m w Hj Hm Hp IH]; intros n Hc Hn Hr; simpl in *.
      - exists [v.1]. split_and!; [done|apply NoDup_singleton|by apply elem_of_list_singleton|done|]. intros a ->%elem_of_list_singleton. eauto.
      - assert (Hk := Hj). rewrite <- Hr in Hk. apply elem_of_list_lookup_2 in Hk. assert (Ha : 0 < cnt s a) by (by eapply kid_cnt).
        destruct (i_hnd _ _ _ _ _ (i_C _ _ _ _ _ _ _ _ HI) a Ha) as (m1&Hm1&_). assert (m1 = m) as -> by (apply entry_heap in Hm1 as [??]; congruence).
        destruct (IH m Ha Hm1 eq_refl) as (l&Hl&Hnd&Hw&_&Hall).
        pose proof (i_stamp _ _ _ _ _ _ (i_H _ _ _ _ _ _ _ _ HI) _ _ _ _ Hn Hk Hm1) as Hlt.
        assert (Hh : ∀ b, b ∈ l → ∃ m', entry s b = Some m' ∧ n_stamp m' < n_stamp n).
        { intros b Hb. destruct (Hall b Hb) as (m'&Hm'&[->|?]); [exists m; eauto|]. exists m'. split; [done|lia]. }
        assert (Hni : h ∉ l) by (intros Hb; destruct (Hh h Hb) as (m'&Hm'&?); assert (m' = n) as -> by congruence; lia).
        exists (h :: l). split_and!; [simpl; lia|by constructor|by apply elem_of_cons; right|by intros _ Ew; rewrite Ew in Hw|].
        intros b [->|Hb]%elem_of_cons; [eauto|]. destruct (Hh b Hb) as (m'&?&?). eauto. }
    destruct (G _ _ _ Hp n) as (l&Hl&Hnd&_&Hw&Hall); [by eapply var_cnt|done|done|]. split; [by apply Hw|].
    assert (Hsub : list_to_set l ⊆ dom (heap s)).
    { intros a Ha. apply elem_of_list_to_set in Ha. destruct (Hall a Ha) as (m&Hm&_). apply elem_of_dom. apply entry_heap in Hm as [??]. eauto. }
    apply subseteq_size in Hsub. rewrite size_list_to_set in Hsub by done. rewrite size_dom in Hsub. lia.
  Qed.
End Inner.

(** ** Examples: [Instances.demo], where 3 is a composite holding 0 and 2 and
    4 a copy of it; then 6, a composite holding 3 and 2 *)
Definition tree_demo : list label := demo ++ call 1 (ONew 6 8 [3; 2]) 104.
Definition ext : state iFS := final iP iFS rc tree_demo.
Lemma ext_reachable : reachable iP iFS rc 0 ext.
Proof. by apply final_reachable; vm_compute. Qed.
Definition at_path (s : state iFS) (x : var) (path : list nat) : option addr :=
  match live s x with Some h => match inner iP iFS s h path with Some o => o | None => None end | None => None end.

(** 9 := the second child of the first child of 6, which is what 2 is *)
Example C61_taken :
  let s' := next iP iFS rc ext (LStart 2 (OInner 9 6 [0; 1])) in
  step iP iFS rc ext (LStart 2 (OInner 9 6 [0; 1])) = Next s' ∧
  at_path ext 6 [0; 1] = live ext 2 ∧ live s' 9 = live ext 2 ∧ live ext 9 = None ∧
  (n_ref <$> entry s' (default 0 (live ext 2))) = Some 4%Z ∧ (n_ref <$> entry ext (default 0 (live ext 2))) = Some 3%Z ∧
  is_next (step iP iFS rc ext (LStart 2 (OInner 9 6 [0; 5]))) = false.
Proof. split; [apply next_ok; vm_compute; reflexivity|]. vm_compute. split_and!; reflexivity. Qed.

(** the copy outlives everything else: all others are destroyed and the value
    is still there; when it goes too, nothing is left *)
Definition fall : list label :=
  call 1 (ODestroy 6) 0 ++ call 2 (ODestroy 3) 0 ++ call 1 (ODestroy 4) 0 ++ call 1 (ODestroy 0) 0 ++ call 2 (ODestroy 1) 0 ++ call 1 (ODestroy 2) 0.
Example C61_left :
  let s1 := next iP iFS rc ext (LStart 2 (OInner 9 6 [0; 1])) in
  let s2 := nexts iP iFS rc s1 fall in
  let s3 := nexts iP iFS rc s2 (call 1 (ODestroy 9) 0) in
  run iP iFS rc s1 fall = Next s2 ∧ value_of s2 9 = value_of ext 2 ∧ is_Some (value_of s2 9) ∧ size (heap s2) = 1 ∧
  is_next (run iP iFS rc s2 (call 1 (ODestroy 9) 0)) = true ∧ size (heap s3) = 0.
Proof. split; [apply nexts_ok; vm_compute; reflexivity|]. vm_compute. split_and!; try reflexivity. by eexists. Qed.

(** x = x.get().child when x is the only object that refers to its value *)
Definition alone : list label :=
  call 1 (ONew 0 7 []) 100 ++ call 1 (ONew 1 5 [0]) 101 ++ call 1 (ODestroy 0) 0.
Example C61_alone :
  let s := final iP iFS rc alone in
  let s1 := next iP iFS rc s (LStart 1 (OInner 9 1 [0])) in
  let s2 := next iP iFS rc s1 (LStart 1 (OSwap 1 9)) in
  let s3 := next iP iFS rc s2 (LStart 1 (ODestroy 9)) in
  let s4 := nexts iP iFS rc s3 (replicate 20 (LRun 1 (Choice 0 false))) in
  is_next (run iP iFS rc (init iFS) alone) = true ∧ size (heap s) = 2 ∧
  is_next (step iP iFS rc s (LStart 1 (OInner 9 1 [0]))) = true ∧ is_next (step iP iFS rc s1 (LStart 1 (OSwap 1 9))) = true ∧
  is_next (step iP iFS rc s2 (LStart 1 (ODestroy 9))) = true ∧
  is_next (run iP iFS rc s3 (replicate 20 (LRun 1 (Choice 0 false)))) = true ∧
  size (heap s4) = 1 ∧ live s4 1 = at_path s 1 [0].
Proof. vm_compute. split_and!; reflexivity. Qed.

Print Assumptions C61_inner.
Print Assumptions C61_enabled.
Print Assumptions C61_stable.
Print Assumptions C61_outlives.
Print Assumptions C61_descend.
Print Assumptions C61_well_founded.
