(** C60: the accesses to memory of the core machine ([Core.v], any number of
    keys, values that hold flyweights, every tracking and locking policy) are
    ordered by happens-before. *)
From Verif Require Import Instances.
From Verif Require Import CoreHbLife.

(** With no_locking, all steps are those of the thread [t0]. *)
Definition hsched_ok {A} (cfg : config) (t0 : tid) (ls : list (hlabel (A:=A))) : Prop :=
  lck cfg = false → Forall (λ l, hlabel_tid l = t0) ls.
(** the steps of the machine itself *)
Definition core_part {A} (ls : list (hlabel (A:=A))) : list (label (A:=A)) :=
  omap (λ l, match l with HCore l => Some l | _ => None end) ls.

(** Events are observed, not checked: the machine is that of [Core.v]. *)
Theorem C60_same_machine {K A R V} (P : policy K A R V) (FS : factory K) cfg i r a (s : state FS) c ls :
  run P FS cfg s (core_part ls) = match hrun P FS cfg i r a (s, c) ls with Some sc => Next sc.1 | None => Undef end.
Proof.
  revert s c. induction ls as [|l ls IH]; intros s c; [done|]. destruct l as [l|t u|t x path]; cbn.
  - destruct (step P FS cfg s l); [apply IH|apply IH|done].
  - apply IH.
  - destruct (stack s t); [|apply IH]. destruct (live s x); apply IH.
Qed.

Section C60.
  Context {K A R V : Type}.
  Context (P : policy K A R V) (FS : factory K) (cfg : config) (inc_sync : bool).
  Context (eqv : K → K → bool) (good : R → Prop).
  Context (Heq : equivalence eqv) (HP : policy_ok eqv good P) (HF : factory_spec eqv FS).
  Context (t0 : tid).
  Notation hrun := (hrun P FS cfg inc_sync true true).

  Lemma hsched_allowed ls : hsched_ok (A:=A) cfg t0 ls → Forall (λ l, allowed cfg t0 (hlabel_tid l)) ls.
  Proof.
    unfold hsched_ok, CoreStep.allowed. intros H. destruct (lck cfg); [|by eapply Forall_impl; [apply H|]].
    apply Forall_forall. by intros l _ [=].
  Qed.
  Lemma reach_life ls sc : hsched_ok cfg t0 ls → hrun (init FS, hinit) ls = Some sc → hwf sc.2 ∧ D sc.2.
  Proof.
    intros Hls%hsched_allowed H. destruct (hrun_life P FS cfg inc_sync eqv good Heq HP HF t0 ls sc Hls H) as [[_ HJ] HD].
    split; [|done]. apply HJ.
  Qed.

  (** with decrements that acquire and release, whatever the increments do, no
      execution has a race *)
  Theorem C60_no_race ls : hsched_ok cfg t0 ls → ∃ sc, hrun (init FS, hinit) ls = Some sc ∧ race_free sc.2.
  Proof.
    intros Hls. destruct (hrun_inv P FS cfg inc_sync eqv good Heq HP HF t0 (init FS, hinit) ls) as (sc&H&_&HJ).
    { by apply hinit_inv. } { by apply hsched_allowed. }
    exists sc. split; [done|]. intros a b Ha Hb Hc Hne. assert (W : hwf sc.2) by apply HJ.
    destruct (decide (a_ev a < a_ev b)); [left; by apply (w_drf _ W); auto|]. right. apply (w_drf _ W); [done|done|lia|].
    left. destruct Hc as (?&?&?). split_and!; [done|tauto|tauto].
  Qed.

  (** happens-before is a strict partial order that contains the order of the
      events of each thread *)
  Theorem C60_order ls sc : hsched_ok cfg t0 ls → hrun (init FS, hinit) ls = Some sc →
    (∀ e, ¬ before sc.2 e e) ∧
    (∀ e e' e'', before sc.2 e e' → before sc.2 e' e'' → before sc.2 e e'') ∧
    (∀ a b, a ∈ tr sc.2 → b ∈ tr sc.2 → a_tid a = a_tid b → a_ev a < a_ev b → before sc.2 (a_ev a) (a_ev b)).
  Proof.
    intros Hls H. destruct (reach_life ls sc Hls H) as [W _]. split_and!.
    - intros e (E&HE&He). destruct (w_past _ W e E HE) as [_ Hlt]. specialize (Hlt e He). lia.
    - intros e e' e'' (E&HE&He) (E'&HE'&He'). destruct (w_past _ W e'' E' HE') as [Hc _]. destruct (Hc e' He') as (E1&HE1&Hs).
      rewrite HE in HE1. injection HE1 as <-. exists E'. split; [done|]. by apply Hs.
    - intros a b Ha Hb Ht Hlt. apply (w_drf _ W); auto.
  Qed.

  (** the creation of an entry happens before every other access to it *)
  Theorem C60_created_first ls sc a j : hsched_ok cfg t0 ls → hrun (init FS, hinit) ls = Some sc →
    a ∈ tr sc.2 → a_loc a ∈ [MRep j; MDel j; MRef j] → a_ev a ≠ j → before sc.2 j (a_ev a).
  Proof.
    intros Hls H Ha Hl Hne. destruct (reach_life ls sc Hls H) as [W HD].
    assert (Hon : on j a) by (unfold on; rewrite !elem_of_cons, elem_of_nil in Hl; tauto).
    destruct (d_first _ HD j a Ha Hon) as (Hle&t&Ht). specialize (Ht _ Hl).
    change j with (a_ev (Acc j t (a_loc a) Write)) at 1. apply (w_drf _ W); [done|done|simpl; lia|]. left. split_and!; simpl; [done|naive_solver..].
  Qed.

  (** every other access to an entry happens before its destruction, the
      atomic ones included *)
  Theorem C60_destroyed_last ls sc a b j : hsched_ok cfg t0 ls → hrun (init FS, hinit) ls = Some sc →
    b ∈ tr sc.2 → a_loc b = MRef j → a_kind b = Write → a_ev b ≠ j →
    a ∈ tr sc.2 → a_loc a ∈ [MRep j; MDel j; MRef j] → a_ev a ≠ a_ev b → before sc.2 (a_ev a) (a_ev b).
  Proof.
    intros Hls H Hb Hlb Hkb Hnb Ha Hl Hne. destruct (reach_life ls sc Hls H) as [W HD].
    assert (Hon : on j a) by (unfold on; rewrite !elem_of_cons, elem_of_nil in Hl; tauto).
    pose proof (d_last _ HD j a b Ha Hb (conj Hlb (conj Hkb Hnb)) Hon) as Hle.
    destruct (d_all _ HD j b Hb (conj Hlb (conj Hkb Hnb)) _ Hl) as (b'&Hb'&He'&Hl'&Hk').
    rewrite <-He'. apply (w_drf _ W); [done|done|lia|]. left. split_and!; [by rewrite Hl'|rewrite Hk'; naive_solver..].
  Qed.
End C60.

(** ** Examples *)
Definition beforeb (c : hb) (e e' : nat) : bool := match past c !! e' with Some E => bool_decide (e ∈ E) | None => false end.
Lemma beforeb_spec c e e' : beforeb c e e' = true ↔ before c e e'.
Proof.
  unfold beforeb, before. destruct (past c !! e') as [E|]; [|split; [done|by intros (?&?&_)]].
  rewrite bool_decide_eq_true. split; [eauto|]. by intros (E'&[= <-]&?).
Qed.
Global Instance conflict_dec a b : Decision (conflict a b).
Proof. unfold conflict. apply _. Defined.
Definition pairs (c : hb) : list (acc * acc) := a ← tr c; b ← tr c; [(a, b)].
(** conflicting accesses of different threads; those that are unordered; any
    unordered accesses *)
Definition conflicts (c : hb) : list (acc * acc) :=
  filter (λ p, conflict p.1 p.2 ∧ a_ev p.1 ≠ a_ev p.2 ∧ a_tid p.1 < a_tid p.2) (pairs c).
Definition unordered (c : hb) (p : acc * acc) : bool :=
  negb (beforeb c (a_ev p.1) (a_ev p.2)) && negb (beforeb c (a_ev p.2) (a_ev p.1)).
Definition races (c : hb) : list (acc * acc) := List.filter (unordered c) (conflicts c).
Definition parallel (c : hb) : list (acc * acc) := List.filter (λ p, unordered c p && bool_decide (a_ev p.1 < a_ev p.2)) (pairs c).
Lemma races_spec c : races c ≠ [] → ¬ race_free c.
Proof.
  unfold races. intros H Hr. destruct (List.filter _ _) as [|[a b] l] eqn:E; [done|].
  assert (Hin : In (a, b) (List.filter (unordered c) (conflicts c))) by (rewrite E; by left).
  apply filter_In in Hin as [Hin Hu]. apply elem_of_list_In, elem_of_list_filter in Hin as [(Hc&Hne&_) Hp]. simpl in *.
  unfold pairs in Hp. apply elem_of_list_bind in Hp as (a'&Hp&Ha). apply elem_of_list_bind in Hp as (b'&Hp&Hb).
  apply elem_of_list_singleton in Hp as [= <- <-].
  unfold unordered in Hu. apply andb_prop in Hu as [H1 H2]. apply negb_true_iff in H1, H2. simpl in *.
  destruct (Hr a b Ha Hb Hc Hne) as [Hx|Hx]; apply beforeb_spec in Hx; congruence.
Qed.

Definition hcall (t : tid) (o : op) (a : addr) : list hlabel := map HCore (call t o a).
(** Thread 1 makes 0 and 2 and a composite 3 that holds copies of them; thread
    2 is told, copies it, reads it and a flyweight in it, while 1 makes an
    unrelated one; both destroy what they have, 2 the composite last. *)
Definition family : list hlabel :=
  hcall 1 (ONew 0 7 []) 100 ++ hcall 1 (ONew 2 3 []) 101 ++ hcall 1 (ONew 3 5 [0; 2]) 102 ++ [HSync 1 2] ++
  hcall 2 (OCopy 4 3) 0 ++ [HWalk 2 4 [1]] ++ [HCore (LStart 2 (OGet 4)); HCore (LStart 1 (OGet 3))] ++
  hcall 1 (ONew 5 8 []) 103 ++ hcall 1 (ODestroy 3) 0.
Definition funeral : list hlabel := hcall 2 (ODestroy 4) 0 ++ hcall 1 (ODestroy 0) 0 ++ hcall 2 (ODestroy 2) 0 ++ hcall 1 (ODestroy 5) 0.
Definition hfinal cfg i r a ls : state iFS * hb := default (init iFS, hinit) (hrun iP iFS cfg i r a (init iFS, hinit) ls).
Definition done_ok cfg i r a ls : bool := match hrun iP iFS cfg i r a (init iFS, hinit) ls with Some _ => true | None => false end.

Example C60_family : let c := (hfinal rc false true true family).2 in let c' := (hfinal rc false true true (family ++ funeral)).2 in
  done_ok rc false true true (family ++ funeral) = true ∧
  (length (tr c), length (conflicts c), length (parallel c), races c) = (42, 7, 47, []) ∧
  (length (tr c'), length (conflicts c'), length (parallel c'), races c', size (nd c')) = (68, 46, 82, [], 0).
Proof. vm_compute. split_and!; reflexivity. Qed.
(** The destructions: entry, thread, and how many accesses of the other thread
    to the entry come before. *)
Definition ends (c : hb) : list (nat * tid * nat) :=
  b ← tr c;
  match a_loc b, a_kind b with
  | MRef j, Write => if decide (a_ev b = j) then []
                     else [(j, a_tid b, length (filter (λ a, a_loc a ∈ [MRep j; MDel j; MRef j] ∧ a_tid a ≠ a_tid b) (tr c)))]
  | _, _ => []
  end.
Example C60_ends : ends (hfinal rc false true true (family ++ funeral)).2 = [(23, 1, 0); (6, 2, 9); (1, 1, 1); (13, 2, 9)].
Proof. vm_compute. reflexivity. Qed.
(** with no_tracking and with a single thread and no_locking, too *)
Example C60_others : 
  (done_ok nt false true true (family ++ funeral), length (tr (hfinal nt false true true (family ++ funeral)).2), races (hfinal nt false true true (family ++ funeral)).2) = (true, 30, []) ∧
  let alone := hcall 0 (ONew 0 7 []) 100 ++ hcall 0 (OCopy 1 0) 0 ++ hcall 0 (ODestroy 0) 0 ++ hcall 0 (ODestroy 1) 0 in
  hsched_ok rc1 0 alone ∧ (done_ok rc1 false true true alone, length (ends (hfinal rc1 false true true alone).2)) = (true, 1).
Proof. split; [vm_compute; reflexivity|]. split; [intros _; vm_compute; repeat constructor|vm_compute; reflexivity]. Qed.
(** Thread 2 takes a flyweight out of a composite of thread 1, which then
    destroys the composite; 2 destroys the last reference to the part. *)
Definition taken : list hlabel :=
  hcall 1 (ONew 0 7 []) 100 ++ hcall 1 (ONew 3 5 [0]) 101 ++ hcall 1 (ODestroy 0) 0 ++ [HSync 1 2] ++
  hcall 2 (OInner 9 3 [0]) 0 ++ [HSync 2 1] ++ hcall 1 (ODestroy 3) 0 ++ [HCore (LStart 2 (OGet 9))] ++ hcall 2 (ODestroy 9) 0.
Example C60_taken : let c := (hfinal rc false true true taken).2 in
  (done_ok rc false true true taken, length (tr c), races c, ends c) = (true, 33, [], [(1, 2, 10); (7, 1, 1)]).
Proof. vm_compute. reflexivity. Qed.
(** If decrements do not release, or do not acquire, the composite is
    destroyed while what the other thread read through it is unordered. *)
Theorem C60_release_refuted i : ∃ ls sc, hsched_ok rc 0 ls ∧ hrun iP iFS rc i false true (init iFS, hinit) ls = Some sc ∧ ¬ race_free sc.2.
Proof.
  exists (family ++ funeral), (hfinal rc i false true (family ++ funeral)). split; [by intros [=]|]. split; [|apply races_spec].
  - unfold hfinal. assert (done_ok rc i false true (family ++ funeral) = true) as H by (destruct i; vm_compute; reflexivity).
    unfold done_ok in H. by destruct (hrun _ _ _ _ _ _ _ _).
  - destruct i; vm_compute; by intros [=].
Qed.
Theorem C60_acquire_refuted i : ∃ ls sc, hsched_ok rc 0 ls ∧ hrun iP iFS rc i true false (init iFS, hinit) ls = Some sc ∧ ¬ race_free sc.2.
Proof.
  exists (family ++ funeral), (hfinal rc i true false (family ++ funeral)). split; [by intros [=]|]. split; [|apply races_spec].
  - unfold hfinal. assert (done_ok rc i true false (family ++ funeral) = true) as H by (destruct i; vm_compute; reflexivity).
    unfold done_ok in H. by destruct (hrun _ _ _ _ _ _ _ _).
  - destruct i; vm_compute; by intros [=].
Qed.
(** With no_locking and two threads there are races. *)
Theorem C60_unlocked_refuted i r a : ∃ ls sc, hrun iP iFS rc1 i r a (init iFS, hinit) ls = Some sc ∧ ¬ race_free sc.2.
Proof.
  exists (hcall 1 (ONew 0 7 []) 100 ++ hcall 2 (ONew 1 8 []) 101), (hfinal rc1 i r a (hcall 1 (ONew 0 7 []) 100 ++ hcall 2 (ONew 1 8 []) 101)). split; [|apply races_spec].
  - unfold hfinal. assert (done_ok rc1 i r a (hcall 1 (ONew 0 7 []) 100 ++ hcall 2 (ONew 1 8 []) 101) = true) as H by (destruct i, r, a; vm_compute; reflexivity).
    unfold done_ok in H. by destruct (hrun _ _ _ _ _ _ _ _).
  - destruct i, r, a; vm_compute; by intros [=].
Qed.

Print Assumptions C60_same_machine.
Print Assumptions C60_no_race.
Print Assumptions C60_order.
Print Assumptions C60_created_first.
Print Assumptions C60_destroyed_last.
Print Assumptions C60_release_refuted.
Print Assumptions C60_acquire_refuted.
Print Assumptions C60_unlocked_refuted.
