(** C63: with concurrent_factory, any number of keys, values that hold
    flyweights and a collector that loads the counters without exclusive
    access to them, accesses to memory are ordered by happens-before. *)
From Verif Require Import PropCoreHb ConcurrentMore ConcurrentPolicies.
From Verif Require Import ConHbLife.

Section C63.
  Context {K A R V : Type}.
  Context (P : Core.policy K A R V) (eqv : K → K → bool) (good : R → Prop).
  Context (Heq : equivalence eqv) (HP : policy_ok eqv good P).
  Context (inc_sync dec_acq : bool).
  Notation state := (Concurrent.state (K:=K) (A:=A) (R:=R)).
  Notation cstep := (cstep P eqv inc_sync true dec_acq true).
  Notation crun := (crun P eqv inc_sync true dec_acq true).
  Implicit Types (s : state) (d : chb).

  Lemma reach_con ls sd : crun (init, cinit) ls = Some sd → Inv P eqv good sd.1 ∧ JH P sd.1 sd.2 (cntf sd.1) ∧ hwf (co sd.2) ∧ D (co sd.2).
  Proof. intros H. destruct (crun_life P eqv good Heq HP inc_sync dec_acq ls sd H) as [[HI HJ] HD]. split_and!; try done. apply HJ. Qed.

  (** with decrements that release and a load that acquires, whatever the
      increments do, no execution has undefined behaviour or a race *)
  Theorem C63_no_race ls : ∃ sd, crun (init, cinit) ls = Some sd ∧ race_free (co sd.2).
  Proof.
    destruct (crun_G P eqv good Heq HP inc_sync dec_acq (init, cinit) ls (cinit_G P eqv good)) as (sd&H&_&HJ&_).
    exists sd. split; [done|]. intros a b Ha Hb Hc Hne. assert (W : hwf (co sd.2)) by apply HJ.
    destruct (decide (a_ev a < a_ev b)); [left; by apply (w_drf _ W); auto|]. right. apply (w_drf _ W); [done|done|lia|].
    left. destruct Hc as (?&?&?). split_and!; [done|tauto|tauto].
  Qed.

  (** The executions of [Concurrent.v], where the load returns the current
      value, are among these. *)
  Definition follow s (l : label) : ConHb.clabel := if tests s l then CLoad 0 else CCon l.
  Theorem C63_covers ls s : run P eqv init ls = Next s → ∃ ls' d, crun (init, cinit) ls' = Some (s, d).
  Proof.
    enough (H : ∀ s0 d0, G P eqv good (s0, d0) → run P eqv s0 ls = Next s → ∃ ls' d, crun (s0, d0) ls' = Some (s, d)) by (apply H, cinit_G).
    induction ls as [|l ls IH]; intros s0 d0 HG Hr; cbn [run] in Hr; [injection Hr as <-; by exists [], d0|].
    destruct (step P eqv s0 l) as [s1| |] eqn:El; [|by eapply IH|done].
    assert (∃ d1, cstep (s0, d0) (follow s0 l) = Some (s1, d1)) as [d1 E1].
    { unfold follow. destruct (tests s0 l) eqn:Et; [|cbn [ConHb.cstep]; rewrite Et, El; by eexists].
      destruct l as [t o|t thr| | |]; try done. cbn [tests] in Et. cbn [step] in El. destruct (stack s0 t) as [|i rest] eqn:Est; [done|]. destruct i; try done.
      destruct HG as [HI [HJ HH]]. simpl in HI, HJ, HH.
      assert (t = gc_tid) as -> by (destruct (i_gc _ _ _ _ HI t (ITest h)) as [Hg _]; [rewrite Est; by left|by apply Hg]).
      cbn [ConHb.cstep]. rewrite Est. cbn [exec] in El. destruct (ents s0 !! h) as [n|] eqn:Hn; [|done]. injection El as <-.
      destruct (HH h) as [(e&l&Ht) _ _]; [by eexists|]. unfold cntf in Ht. rewrite Hn in Ht. unfold load. rewrite Ht. simpl. by eexists. }
    destruct (cstep_G P eqv good Heq HP inc_sync dec_acq (s0, d0) (follow s0 l) HG) as (sd1&E1'&HG1). rewrite E1 in E1'. injection E1' as <-.
    destruct (IH s1 d1 HG1 Hr) as (ls'&d&E). exists (follow s0 l :: ls'), d. cbn [ConHb.crun]. by rewrite E1.
  Qed.

  (** A collector that reads 0, current or not, is right: nothing refers to
      the element, and this remains so until it is erased. *)
  Theorem C63_zero ls s d h rest i d' : crun (init, cinit) ls = Some (s, d) → stack s gc_tid = ITest h :: rest →
    load true gc_tid h i d = Some (0%Z, d') → i = 0 ∧ ¬ referenced P s h.
  Proof.
    intros H Hst Hl. destruct (reach_con ls _ H) as (HI&HJ&_&_). simpl in HI, HJ.
    destruct (accessed P eqv good s gc_tid (ITest h) h HI) as (n&Hn&Ho); [rewrite Hst; by left|simpl; rewrite at_eq; lia|].
    destruct (load_zero P s d gc_tid h i d' n HJ Hn Ho Hl) as (->&Hz&_). split; [done|]. by apply (count_referenced P eqv good s h n HI Hn).
  Qed.
  Theorem C63_erased ls s d h t : crun (init, cinit) ls = Some (s, d) → IErase h ∈ stack s t → ¬ referenced P s h.
  Proof.
    intros H Hi. destruct (reach_con ls _ H) as (HI&_&_&_). simpl in HI. rewrite referenced_cnt. pose proof (i_ok _ _ _ _ HI t _ Hi) as H0. simpl in H0. lia.
  Qed.
  (** What a flyweight refers to is there, with its value. *)
  Theorem C63_alive ls s d h : crun (init, cinit) ls = Some (s, d) → referenced P s h →
    ∃ n, ents s !! h = Some n ∧ (0 < n_cnt n)%Z ∧ is_Some (p_val P (n_rep n)).
  Proof. intros H. destruct (reach_con ls _ H) as (HI&_&_&_). exact (referenced_there P eqv good s h HI). Qed.

  (** happens-before is a strict partial order that contains the order of the
      events of each thread *)
  Theorem C63_order ls s d : crun (init, cinit) ls = Some (s, d) →
    (∀ e, ¬ before (co d) e e) ∧
    (∀ e e' e'', before (co d) e e' → before (co d) e' e'' → before (co d) e e'') ∧
    (∀ a b, a ∈ tr (co d) → b ∈ tr (co d) → a_tid a = a_tid b → a_ev a < a_ev b → before (co d) (a_ev a) (a_ev b)).
  Proof.
    intros H. destruct (reach_con ls _ H) as (_&_&W&_). simpl in W. split_and!.
    - intros e (E&HE&He). destruct (w_past _ W e E HE) as [_ Hlt]. specialize (Hlt e He). lia.
    - intros e e' e'' (E&HE&He) (E'&HE'&He'). destruct (w_past _ W e'' E' HE') as [Hc _]. destruct (Hc e' He') as (E1&HE1&Hs).
      rewrite HE in HE1. injection HE1 as <-. exists E'. split; [done|]. by apply Hs.
    - intros a b Ha Hb Ht Hlt. apply (w_drf _ W); auto.
  Qed.

  (** the creation of an entry happens before every other access to it *)
  Theorem C63_created_first ls s d a j : crun (init, cinit) ls = Some (s, d) →
    a ∈ tr (co d) → a_loc a ∈ [MRep j; MRef j] → a_ev a ≠ j → before (co d) j (a_ev a).
  Proof.
    intros H Ha Hl Hne. destruct (reach_con ls _ H) as (_&_&W&HD). simpl in W, HD.
    assert (Hon : on j a) by (unfold on; rewrite !elem_of_cons, elem_of_nil in Hl; tauto).
    destruct (d_first _ HD j a Ha Hon) as (Hle&t&Ht). specialize (Ht _ Hl).
    change j with (a_ev (Acc j t (a_loc a) Write)) at 1. apply (w_drf _ W); [done|done|simpl; lia|]. left. split_and!; simpl; [done|naive_solver..].
  Qed.

  (** every other access to an entry happens before its destruction, the
      atomic ones included *)
  Theorem C63_destroyed_last ls s d a b j : crun (init, cinit) ls = Some (s, d) →
    b ∈ tr (co d) → a_loc b = MRef j → a_kind b = Write → a_ev b ≠ j →
    a ∈ tr (co d) → a_loc a ∈ [MRep j; MRef j] → a_ev a ≠ a_ev b → before (co d) (a_ev a) (a_ev b).
  Proof.
    intros H Hb Hlb Hkb Hnb Ha Hl Hne. destruct (reach_con ls _ H) as (_&_&W&HD). simpl in W, HD.
    assert (Hon : on j a) by (unfold on; rewrite !elem_of_cons, elem_of_nil in Hl; tauto).
    pose proof (d_last _ HD j a b Ha Hb (conj Hlb (conj Hkb Hnb)) Hon) as Hle.
    destruct (d_all _ HD j b Hb (conj Hlb (conj Hkb Hnb)) _ Hl) as (b'&Hb'&Hev&Hl'&Hk'). rewrite <- Hev in *.
    apply (w_drf _ W); [done|done|lia|]. left. split_and!; [by rewrite Hl'|rewrite Hk'; naive_solver..].
  Qed.
End C63.
Notation hlab := (ConHb.clabel (A:=nat)).

(** ** concrete cases *)
Definition ccall (t : tid) (o : op) : list hlab := CCon (LStart t o) :: replicate 20 (CCon (LRun t false)).
(** a pass; the load returns the [i]-th newest value *)
Definition cpass (n i : nat) : list hlab :=
  CCon LBegin :: concat (map (λ h, CCon (LLook h) :: CLoad i :: replicate 5 (CCon (LRun gc_tid false))) (seq 0 n)) ++ [CCon LEnd].
Definition cfinal i r a l ls : cstate * chb := default (init, cinit) (ConHb.crun iP ieq i r a l (init, cinit) ls).
Definition cdone i r a l ls : bool := match ConHb.crun iP ieq i r a l (init, cinit) ls with Some _ => true | None => false end.
(** Thread 1 makes 0 and 2 and a composite 3 that holds copies of them, while
    the collector makes a pass; thread 2 is told, copies it, reads it and a
    flyweight in it, while 1 makes an unrelated one, meeting another on the
    way; both destroy what they have, 2 the composite last. *)
Definition cfamily : list hlab :=
  ccall 1 (ONew 0 7 []) ++ ccall 1 (ONew 2 3 []) ++ cpass 2 0 ++ ccall 1 (ONew 3 5 [0; 2]) ++ [CSync 1 2] ++
  ccall 2 (OCopy 4 3) ++ [CWalk 2 4 [1]] ++ ccall 2 (OGet 4) ++ ccall 1 (OGet 3) ++
  [CCon (LStart 1 (ONew 5 8 [])); CCon (LRun 1 false); CProbe 1 0] ++ replicate 20 (CCon (LRun 1 false)) ++ ccall 1 (ODestroy 3).
Definition cfuneral : list hlab := ccall 2 (ODestroy 4) ++ ccall 1 (ODestroy 0) ++ ccall 2 (ODestroy 2) ++ ccall 1 (ODestroy 5).
Definition cends (c : hb) : list (nat * tid * nat) :=
  b ← tr c;
  match a_loc b, a_kind b with
  | MRef j, Write => if decide (a_ev b = j) then []
                     else [(j, a_tid b, length (List.filter (λ a, bool_decide (a_loc a ∈ [MRep j; MRef j]) && negb (bool_decide (a_tid a = a_tid b))) (tr c)))]
  | _, _ => []
  end.
Example C63_family : let c := co (cfinal false true false true cfamily).2 in let c' := co (cfinal false true false true (cfamily ++ cfuneral ++ cpass 4 0 ++ cpass 4 0)).2 in
  cdone false true false true (cfamily ++ cfuneral ++ cpass 4 0 ++ cpass 4 0) = true ∧
  (length (tr c), length (conflicts c), length (parallel c), races c) = (35, 15, 137, []) ∧
  (length (tr c'), length (conflicts c'), length (parallel c'), races c') = (55, 62, 220, []) ∧
  cends c' = [(3, 0, 9); (0, 0, 7); (27, 0, 5); (10, 0, 16)].
Proof. vm_compute. split_and!; reflexivity. Qed.
(** A pass that gets the values before the last erases nothing; one that gets
    the current ones erases the composite and what else is unused. *)
Definition left_over (ls : list hlab) : list addr := (map_to_list (ents (cfinal false true false true (cfamily ++ cfuneral ++ ls)).1)).*1.
Example C63_stale : (length (left_over (cpass 4 1)), length (left_over (cpass 4 2)), left_over (cpass 4 0), left_over (cpass 4 1 ++ cpass 4 0 ++ cpass 4 0)) = (4, 4, [0; 1], []).
Proof. vm_compute. reflexivity. Qed.
(** the state of C63_zero, C63_erased and C63_alive: the collector is about
    to test the composite; then to erase it *)
Definition testing : list hlab := cfamily ++ cfuneral ++ [CCon LBegin; CCon (LLook 2)].
Example C63_zero_ex : let sd := cfinal false true false true testing in
  cdone false true false true testing = true ∧ stack sd.1 gc_tid = [ITest 2] ∧
  (fst <$> load true gc_tid 2 0 sd.2, fst <$> load true gc_tid 2 1 sd.2, fst <$> load true gc_tid 2 2 sd.2) = (Some 0%Z, Some 1%Z, Some 2%Z) ∧
  stack (cfinal false true false true (testing ++ [CLoad 0])).1 gc_tid = [IErase 2] ∧
  stack (cfinal false true false true (testing ++ [CLoad 1])).1 gc_tid = [ISkip 2] ∧
  stack (cfinal false true false true (cfamily ++ [CCon LBegin; CCon (LLook 2); CLoad 0])).1 gc_tid = [ISkip 2].
Proof. vm_compute. split_and!; reflexivity. Qed.
Example C63_alive_ex : let s := (cfinal false true false true testing).1 in
  p_kids iP <$> (n_rep <$> ents s !! 2) = Some [0; 1] ∧ (n_cnt <$> ents s !! 0, n_cnt <$> ents s !! 2) = (Some 1%Z, Some 0%Z).
Proof. vm_compute. split; reflexivity. Qed.
Example C63_covers_ex : cdoes init demo = true ∧ cdoes init (demo ++ pass 3) = true.
Proof. vm_compute. split; reflexivity. Qed.

(** If decrements do not release, or the load does not acquire, the collector
    destroys what another thread read without order between them. *)
Definition bury : list hlab := cfamily ++ cfuneral ++ cpass 4 0.
Theorem C63_release_refuted i a l : ∃ ls sd, ConHb.crun iP ieq i false a l (init, cinit) ls = Some sd ∧ ¬ race_free (co sd.2).
Proof.
  exists bury, (cfinal i false a l bury). split; [|apply races_spec].
  - unfold cfinal. assert (cdone i false a l bury = true) as H by (destruct i, a, l; vm_compute; reflexivity).
    unfold cdone in H. by destruct (ConHb.crun _ _ _ _ _ _ _ _).
  - destruct i, a, l; vm_compute; by intros [=].
Qed.
Theorem C63_acquire_refuted i r a : ∃ ls sd, ConHb.crun iP ieq i r a false (init, cinit) ls = Some sd ∧ ¬ race_free (co sd.2).
Proof.
  exists bury, (cfinal i r a false bury). split; [|apply races_spec].
  - unfold cfinal. assert (cdone i r a false bury = true) as H by (destruct i, r, a; vm_compute; reflexivity).
    unfold cdone in H. by destruct (ConHb.crun _ _ _ _ _ _ _ _).
  - destruct i, r, a; vm_compute; by intros [=].
Qed.

Print Assumptions C63_no_race.
Print Assumptions C63_covers.
Print Assumptions C63_zero.
Print Assumptions C63_erased.
Print Assumptions C63_alive.
Print Assumptions C63_order.
Print Assumptions C63_created_first.
Print Assumptions C63_destroyed_last.
Print Assumptions C63_release_refuted.
Print Assumptions C63_acquire_refuted.
