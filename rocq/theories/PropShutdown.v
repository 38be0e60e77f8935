(** C29: shutdown of the concurrent factory. *)
From Verif Require Import ShutdownSpec.

Definition in_crit (p : gpc) : bool := match p with G_test | G_sleep | G_test2 | G_leave | G_return => true | _ => false end.
Definition past_set (p : opc) : bool := match p with O_unlock | O_notify | O_join | O_destroy _ | O_done => true | _ => false end.
Definition past_notify (p : opc) : bool := match p with O_join | O_destroy _ | O_done => true | _ => false end.
Definition own_crit (p : opc) : bool := match p with O_set | O_unlock => true | _ => false end.
Definition suffix_of (ms : list member) : Prop := ∃ pre, decls = pre ++ ms.

Record Inv (s : state) : Prop := {
  v_held : held s = if own_crit (opos s) then Some O_main else match gpos s with Some p => if in_crit p then Some O_coll else None | None => None end;
  v_excl : own_crit (opos s) = true → match gpos s with Some p => in_crit p = false | None => True end;
  v_stop : stop s = past_set (opos s);
  v_mem : match opos s with
          | O_build ms => suffix_of ms ∧ (∀ m, m ∉ ms → mem s m = Alive) ∧ (gpos s ≠ None → ms = [])
          | O_destroy _ | O_done => True
          | _ => ∀ m, mem s m = Alive
          end;
  v_started : match opos s with O_build (_ :: _) => gpos s = None | _ => gpos s ≠ None end;
  v_sleep : gpos s = Some G_sleep ∨ gpos s = Some G_leave → stop s = false;
  v_wait : gpos s = Some G_wait → past_notify (opos s) = true → notified s = true;
  v_exit : gpos s = Some G_exit ∨ gpos s = Some G_return → stop s = true;
  v_join : joined s → gpos s = Some G_exit;
  v_left : match opos s with O_destroy ms => length ms ≤ 5 | _ => True end;
}.

Lemma start_inv : Inv start.
Proof.
  split; simpl; try done; try naive_solver. split_and!; [by exists []| |done].
  intros m Hm. exfalso. apply Hm. unfold decls. destruct m; set_solver.
Qed.

Lemma inv_alive s p m : Inv s → gpos s = Some p → p ≠ G_exit → mem s m = Alive.
Proof.
  intros HI Hp Hne. pose proof (v_mem _ HI) as Hm. pose proof (v_join _ HI) as Hj. unfold joined in Hj.
  destruct (opos s) as [ms| | | | | | |ms|]; try done; try (exfalso; apply Hne; specialize (Hj I); congruence).
  destruct Hm as (_&Ha&Hn). apply Ha. rewrite Hn by congruence. apply not_elem_of_nil.
Qed.

Lemma inv_touched s p : Inv s → gpos s = Some p → forallb (alive s) (touched p) = true.
Proof.
  intros HI Hp. assert (Ha : p ≠ G_exit → ∀ m, alive s m = true). { intros Hne m. unfold alive. by rewrite (inv_alive s p m HI Hp Hne). }
  destruct p; simpl; rewrite ?Ha by done; done.
Qed.

Lemma gstep_inv s p l : Inv s → gpos s = Some p → match gstep s p l with Next s' => Inv s' | Stuck => True | Undef => False end.
Proof.
  intros HI Hp. unfold gstep. rewrite (inv_touched s p HI Hp). simpl. destruct HI as [V1 V2 V3 V4 V5 V6 V7 V8 V9 V10]. unfold joined in *.
  destruct s as [o g h nt sp me ac]; simpl in *. subst g.
  assert (Hgo : ∀ p' h' nt' a, (match o with O_build ms => ms = [] | O_destroy _ | O_done => p' = G_exit | _ => True end) →
      h' = (if own_crit o then Some O_main else if in_crit p' then Some O_coll else None) →
      (own_crit o = true → in_crit p' = false) → (p' = G_sleep ∨ p' = G_leave → sp = false) →
      (p' = G_wait → past_notify o = true → nt' = true) → (p' = G_exit ∨ p' = G_return → sp = true) →
      Inv (State o (Some p') h' nt' sp me a)).
  { intros p' h' nt' a E0 E1 E2 E3 E4 E5. split; simpl; try done.
    - destruct o; try done. destruct V4 as (?&?&?). done.
    - destruct o as [[|]| | | | | | | |]; try done.
    - intros [|]; apply E3; [left|right]; congruence.
    - intros [=]. auto.
    - intros [|]; apply E5; [left|right]; congruence.
    - unfold joined. simpl. destruct o; try done; intros _; by rewrite E0. }
  assert (Ho : match o with O_build ms => ms = [] | O_destroy _ | O_done => p = G_exit | _ => True end).
  { destruct o as [ms| | | | | | | |]; try done; [destruct V4 as (_&_&?); auto|specialize (V9 I); congruence|specialize (V9 I); congruence]. }
  assert (Hno : match o with O_destroy _ | O_done => p = G_exit | _ => True end) by (by destruct o).
  destruct p as [| | | |b| | | |[|n]|], l as [| |b'|n']; cbn [gstep]; try done;
    repeat match goal with |- context [match ?x with _ => _ end] => is_var x; destruct x end; try done; unfold gc_to; simpl; try apply Hgo; try done.
  all: try (by intros [|]). all: try (by destruct o). all: try (by destruct sp, o).
  all: try (destruct (own_crit o); [by specialize (V2 eq_refl)|done]).
  - intros _ Hn. specialize (V6 (or_introl eq_refl)). rewrite V6 in V3. by destruct o.
  - intros _. apply V8. by right.
Qed.

Lemma rev_decls : rev decls = [Gc; Stop; Cv; Mtx; Cont].
Proof. done. Qed.

Lemma ostep_inv s : Inv s → match ostep s with Next s' => Inv s' | Stuck => True | Undef => False end.
Proof.
  intros [V1 V2 V3 V4 V5 V6 V7 V8 V9 V10]. unfold joined in *. destruct s as [o g h nt sp me ac]; simpl in *.
  unfold ostep, alive, own_to, own_to_held. simpl.
  destruct o as [[|m ms]| | | | | | |[|m ms]|]; try done.
  - (* built *) destruct V4 as (_&Ha&_). split; simpl; try done. intros m. apply Ha, not_elem_of_nil.
  - (* construct m *) simpl in V3. destruct V4 as ([pre Hpre]&Ha&_). subst g.
    assert (Hlast : m = Gc ↔ ms = []).
    { unfold decls in Hpre. destruct pre as [|? [|? [|? [|? [|? [|]]]]]]; simpl in Hpre; simplify_eq; done. }
    assert (Hd : m ∉ ms) by (unfold decls in Hpre; destruct pre as [|? [|? [|? [|? [|? [|]]]]]]; simpl in Hpre; simplify_eq; set_solver).
    split; unfold joined; simpl; try done.
    + by destruct (decide (m = Gc)).
    + subst sp. by destruct (decide (m = Stop)).
    + split_and!; [exists (pre ++ [m]); by rewrite <- app_assoc| |].
      * intros m' Hm'. unfold put_mem. case_decide; [done|]. apply Ha. set_solver.
      * destruct (decide (m = Gc)) as [->|]; [intros _; by apply Hlast|done].
    + destruct ms; [rewrite decide_True by (by apply Hlast); done|]. rewrite decide_False; [done|]. intros Hm. by apply Hlast in Hm.
    + intros [H|H]; destruct (decide (m = Gc)); done.
    + intros [H|H]; destruct (decide (m = Gc)); done.
  - (* lock *) rewrite V4. simpl. destruct h; [done|]. split; simpl; try done. intros _. destruct g as [p|]; [|done]. by destruct (in_crit p).
  - (* set *) split; simpl; try done. specialize (V2 eq_refl). intros [-> | ->]; done.
  - (* unlock *) specialize (V2 eq_refl). split; simpl; try done. destruct g as [p|]; [|done]. by rewrite V2.
  - (* notify *) rewrite V4. simpl. split; simpl; try done. by intros -> _.
  - (* join *) destruct g as [[| | | | | | | | |]|]; try done. split; simpl; try done.
  - (* destroy m *) split; simpl in *; try done. lia.
Qed.

Lemma step_inv s l : Inv s → match step s l with Next s' => Inv s' | Stuck => True | Undef => False end.
Proof.
  intros HI. unfold step. assert (Hg : ∀ p, gpos s = Some p → match gstep s p l with Next s' => Inv s' | Stuck => True | Undef => False end).
  { intros p Hp. by apply gstep_inv. }
  destruct l; try (destruct (gpos s); [by apply Hg|done]). by apply ostep_inv.
Qed.
Lemma run_inv ls s : Inv s → match run s ls with Next s' => Inv s' | _ => False end.
Proof.
  revert s. induction ls as [|l ls IH]; intros s HI; simpl; [done|]. pose proof (step_inv s l HI). destruct (step s l); [by apply IH|by apply IH|done].
Qed.
Lemma reach_inv s : reachable s → Inv s.
Proof. intros (ls&Hr). pose proof (run_inv ls start start_inv) as H. by rewrite Hr in H. Qed.

(** ** the theorems *)

(** no member is used, by either thread, before its construction or after its
    destruction *)
Theorem C29_no_undefined_behaviour ls : ∃ s, run start ls = Next s.
Proof. pose proof (run_inv ls start start_inv) as H. destruct (run start ls); [eauto|done|done]. Qed.

(** after join the collector makes no further access *)
Theorem C29_no_access_after_join s ls s' : reachable s → joined s → run s ls = Next s' →
  accesses s' = accesses s ∧ joined s' ∧ gpos s' = Some G_exit.
Proof.
  intros Hr. pose proof (reach_inv s Hr) as HI. clear Hr. revert s HI. induction ls as [|l ls IH]; intros s HI Hj Hrun; simpl in Hrun.
  - simplify_eq. split_and!; [done|done|by apply v_join].
  - pose proof (step_inv s l HI) as Hok. destruct (step s l) as [s1| |] eqn:Es; [|by apply IH|done].
    assert (accesses s1 = accesses s ∧ joined s1) as [E Hj'].
    { pose proof (v_join _ HI Hj) as Hg. unfold step in Es. rewrite Hg in Es. destruct l; simpl in Es; try done.
      unfold ostep, joined in *. destruct (opos s) as [| | | | | | |[|m ms]|] eqn:Eo; try done; simplify_eq; simpl; by rewrite ?Eo. }
    destruct (IH s1 Hok Hj' Hrun) as (E1&?&?). split_and!; [congruence|done|done].
Qed.

(** the flag stop is never accessed by both threads at once *)
Theorem C29_stop_not_raced s : reachable s → opos s = O_set → gpos s ≠ Some G_test ∧ gpos s ≠ Some G_test2.
Proof. intros Hr Ho. pose proof (v_excl _ (reach_inv s Hr)) as H. rewrite Ho in H. specialize (H eq_refl). split; intros E; rewrite E in H; done. Qed.

(** no deadlock, and no reliance on the time-out: until the destructor has
    returned, a step other than a time-out or a spurious wake-up is possible *)
Lemma gc_enabled s p : Inv s → gpos s = Some p → p ≠ G_exit → own_crit (opos s) = false → (p = G_wait → notified s = true) →
  ∃ l s', l ≠ L_own ∧ planned l ∧ step s l = Next s'.
Proof.
  intros HI Hp Hne Ho Hw. pose proof (inv_touched s p HI Hp) as Ht. pose proof (v_held _ HI) as Hh. rewrite Ho, Hp in Hh.
  destruct (decide (p = G_leave)) as [->|Hl].
  - exists (L_pass 0). unfold step. rewrite Hp. unfold gstep. rewrite Ht. by eexists.
  - exists L_gc. unfold step. rewrite Hp. unfold gstep. rewrite Ht. simpl.
    destruct p as [| | | | | | | |[|n]|]; simpl in Hh; try done; rewrite ?Hh; try (by eexists). rewrite Hw by done. by eexists.
Qed.
Theorem C29_no_deadlock s : reachable s → opos s ≠ O_done → ∃ l s', planned l ∧ step s l = Next s'.
Proof.
  intros Hr Hd. pose proof (reach_inv s Hr) as HI.
  destruct (opos s) as [[|m ms]| | | | | | |[|m ms]|] eqn:Eo; try done;
    try (exists L_own; simpl; unfold ostep; rewrite Eo; by eexists).
  - (* lock *) pose proof (v_held _ HI) as Hh. pose proof (v_mem _ HI) as Hm. rewrite Eo in Hh, Hm. simpl in Hh.
    destruct (held s) as [o|] eqn:Eh.
    + destruct (gpos s) as [p|] eqn:Ep; [|done]. destruct (in_crit p) eqn:Ec; [|done].
      destruct (gc_enabled s p HI Ep) as (l&s'&_&?&?); [by destruct p|by rewrite Eo|by destruct p|eauto].
    + exists L_own. simpl. unfold ostep, alive. rewrite Eo, Hm, Eh. by eexists.
  - exists L_own. simpl. unfold ostep, alive. pose proof (v_mem _ HI) as Hm. rewrite Eo in Hm. rewrite Eo, Hm. by eexists.
  - (* join *) pose proof (v_started _ HI) as Hs. rewrite Eo in Hs. destruct (gpos s) as [p|] eqn:Ep; [|done].
    destruct (decide (p = G_exit)) as [->|Hne]; [exists L_own; simpl; unfold ostep; rewrite Eo, Ep; by eexists|].
    destruct (gc_enabled s p HI Ep Hne) as (l&s'&_&?&?); [by rewrite Eo| |eauto].
    intros ->. apply (v_wait _ HI); [done|by rewrite Eo].
Qed.

(** once stop is set every further step brings the end closer, whatever the
    schedule, the time-outs and the spurious wake-ups *)
Definition gw (s : state) : nat :=
  match gpos s with
  | Some G_exit | None => 0
  | Some G_return | Some G_sleep | Some G_leave => 1
  | Some G_test | Some G_test2 => 2
  | Some G_start | Some (G_wake _) => 3
  | Some G_wait => 4
  | Some (G_pass n) => 4 + n
  end.
Definition ow (s : state) : nat :=
  match opos s with
  | O_build ms => 15 + length ms | O_use => 14 | O_lock => 13 | O_set => 12 | O_unlock => 11 | O_notify => 10 | O_join => 9
  | O_destroy ms => 1 + length ms | O_done => 0
  end.
Lemma ostep_ow s s' : ostep s = Next s' → ow s' < ow s ∧ (stop s = true → Inv s → gpos s' = gpos s ∧ stop s' = true).
Proof.
  unfold ostep. intros H. split.
  - unfold ow. destruct (opos s) as [[|m ms]| | | | | | |[|m ms]|] eqn:Eo; try done; repeat case_match; simplify_eq; unfold decls in *; simpl in *; simplify_eq; try lia. all: cbn; lia.
  - intros Hs HI. pose proof (v_stop _ HI) as Hv. rewrite Hs in Hv.
    destruct (opos s) as [[|m ms]| | | | | | |[|m ms]|] eqn:Eo; try done; repeat case_match; simplify_eq; done.
Qed.
Lemma gstep_ow s l s' : l ≠ L_own → step s l = Next s' → opos s' = opos s ∧ stop s' = stop s.
Proof.
  intros Hl H. unfold step, gstep in H. destruct l; try done; repeat case_match; simplify_eq; done.
Qed.
Lemma gstep_gw s l s' : Inv s → stop s = true → l ≠ L_own → step s l = Next s' → gw s' < gw s.
Proof.
  intros HI Hs Hl H. pose proof (v_sleep _ HI) as Hsl. unfold step in H. unfold gw at 2.
  assert (∃ p, gpos s = Some p ∧ gstep s p l = Next s') as (p&Hp&Hg). { destruct l; try done; destruct (gpos s); eauto; done. }
  rewrite Hp in *. clear H. unfold gstep in Hg. rewrite (inv_touched s p HI Hp) in Hg. simpl in Hg.
  assert (p ≠ G_sleep ∧ p ≠ G_leave) as [Hp1 Hp2].
  { split; intros ->; rewrite Hsl in Hs; [done|by auto|done|by auto]. }
  destruct p as [| | | | | | | |[|n]|], l; try done; repeat case_match; simplify_eq; unfold gw; simpl; rewrite ?Hs; try lia.
Qed.

(** steps until the destructor has returned, counting the rest of a traversal in progress *)
Theorem C29_terminates s ls : reachable s → stop s = true → steps s ls ≤ 15 + traversal s.
Proof.
  intros Hr Hs. pose proof (reach_inv s Hr) as HI. clear Hr.
  assert (Hw : ∀ ls s, Inv s → stop s = true → steps s ls ≤ ow s + gw s).
  { clear. induction ls as [|l ls IH]; intros s HI Hs; simpl; [lia|]. pose proof (step_inv s l HI) as Hok.
    destruct (step s l) as [s'| |] eqn:E; [|by apply IH|lia]. destruct (decide (l = L_own)) as [->|Hl].
    - simpl in E. destruct (ostep_ow s s' E) as [H1 H2]. destruct (H2 Hs HI) as [H3 H4].
      assert (gw s' = gw s) by (unfold gw; by rewrite H3). specialize (IH s' Hok H4). lia.
    - pose proof (gstep_gw s l s' HI Hs Hl E). destruct (gstep_ow s l s' Hl E) as [Eo Es].
      assert (ow s' = ow s) by (unfold ow; by rewrite Eo). rewrite Hs in Es. specialize (IH s' Hok Es). lia. }
  etrans; [by apply Hw|]. pose proof (v_stop _ HI) as Hv. rewrite Hs in Hv. 
  assert (ow s ≤ 11) as Ho.
  { unfold ow. destruct (opos s) as [| | | | | | |ms|] eqn:Eo; try done; try lia. pose proof (v_left _ HI) as H. rewrite Eo in H. simpl. lia. }
  unfold gw, traversal. destruct (gpos s) as [[]|]; lia.
Qed.

Lemma steps_app s ls s' ls' : run s ls = Next s' → steps s (ls ++ ls') = steps s ls + steps s' ls'.
Proof. revert s. induction ls as [|l ls IH]; intros s Hr; simpl in *; [by simplify_eq|]. destruct (step s l); [by rewrite IH|by apply IH|done]. Qed.
Lemma run_app s ls s' ls' : run s ls = Next s' → run s (ls ++ ls') = run s' ls'.
Proof. revert s. induction ls as [|l ls IH]; intros s Hr; simpl in *; [by simplify_eq|]. destruct (step s l); [by apply IH|by apply IH|done]. Qed.
Lemma reach_run s ls s' : reachable s → run s ls = Next s' → reachable s'.
Proof. intros [l0 Hr] Hrun. exists (l0 ++ ls). by rewrite (run_app _ _ _ _ Hr). Qed.

(** ... and if no step is possible the destructor has returned; with the two
    theorems above: every execution that goes on returns within that many steps *)
Theorem C29_returns s ls s' : reachable s → stop s = true → run s ls = Next s' → 15 + traversal s ≤ steps s ls → opos s' = O_done.
Proof.
  intros Hr Hs Hrun Hn.
  pose proof (reach_run _ _ _ Hr Hrun) as Hr'.
  destruct (decide (match opos s' with O_done => true | _ => false end = true)) as [|Hd]; [by destruct (opos s')|].
  destruct (C29_no_deadlock s' Hr') as (l&s2&_&Hstep); [by intros E; rewrite E in Hd|]. exfalso.
  pose proof (C29_terminates s (ls ++ [l]) Hr Hs) as Hle.
  rewrite (steps_app _ _ _ _ Hrun) in Hle. simpl in Hle. rewrite Hstep in Hle. lia.
Qed.

(** the collector keeps the mutex for at most two of its steps, whichever they are *)
Definition cw (s : state) : nat :=
  match gpos s with Some G_test | Some G_test2 => 2 | Some G_sleep | Some G_leave | Some G_return => 1 | _ => 0 end.
Lemma gstep_cw s l s' : Inv s → held s = Some O_coll → l ≠ L_own → step s l = Next s' → cw s' < cw s ∧ (held s' = Some O_coll ∨ held s' = None).
Proof.
  intros HI Hh Hl H. assert (∃ p, gpos s = Some p ∧ gstep s p l = Next s') as (p&Hp&Hg).
  { unfold step in H. destruct l; try done; destruct (gpos s); eauto; done. }
  pose proof (v_held _ HI) as Hv. rewrite Hh, Hp in Hv. assert (in_crit p = true) as Hc by (destruct (own_crit (opos s)), (in_crit p); done).
  unfold cw at 2. rewrite Hp. unfold gstep in Hg. rewrite (inv_touched s p HI Hp) in Hg. simpl in Hg.
  destruct p as [| | | | | | | |[|n]|], l; try done; repeat case_match; simplify_eq; unfold cw; simpl; split; auto with lia.
Qed.
Theorem C29_mutex_released s ls : reachable s → held s = Some O_coll → Forall of_gc ls → 2 ≤ steps s ls →
  ∃ ls1 ls2 s', ls = ls1 ++ ls2 ∧ run s ls1 = Next s' ∧ held s' = None.
Proof.
  intros Hr Hh Hg Hn. pose proof (reach_inv s Hr) as HI. assert (cw s ≤ steps s ls) as Hc.
  { etrans; [|exact Hn]. unfold cw. destruct (gpos s) as [[]|]; lia. }
  clear Hr Hn. revert s HI Hh Hc. induction Hg as [|l ls Hl Hg IH]; intros s HI Hh Hc; simpl in Hc.
  - exfalso. pose proof (v_held _ HI) as Hv. rewrite Hh in Hv. destruct (own_crit (opos s)); [done|]. unfold cw in Hc. destruct (gpos s) as [[]|]; simpl in Hv; try done; lia.
  - pose proof (step_inv s l HI) as Hok. destruct (step s l) as [s1| |] eqn:E; [| |done].
    + destruct (gstep_cw s l s1 HI Hh Hl E) as [Hlt [Hh1|Hh1]].
      * destruct (IH s1 Hok Hh1) as (ls1&ls2&s'&->&Hr&H); [lia|]. exists (l :: ls1), ls2, s'. split_and!; [done| |done]. simpl. by rewrite E.
      * exists [l], ls, s1. split_and!; [done| |done]. simpl. by rewrite E.
    + destruct (IH s HI Hh Hc) as (ls1&ls2&s'&->&Hr&H). exists (l :: ls1), ls2, s'. split_and!; [done| |done]. simpl. by rewrite E.
Qed.

(** no infinite fair execution keeps the destructor from returning *)
Section fair.
  Context (σ : nat → label) (Hfo : fair_owner σ) (Hfg : fair_gc σ) (Hnever : ∀ n, opos (st σ n) ≠ O_done).
  Lemma st_reach n : reachable (st σ n).
  Proof.
    induction n as [|n IH]; [by exists []|]. simpl. destruct (step (st σ n) (σ n)) as [s'| |] eqn:E; [|done|done].
    apply (reach_run _ [σ n] _ IH). simpl. by rewrite E.
  Qed.
  Lemma st_inv n : Inv (st σ n).
  Proof. apply reach_inv, st_reach. Qed.
  Lemma not_taken (P : label → Prop) n : ¬ takes σ P n → P (σ n) → st σ (S n) = st σ n.
  Proof. intros Hn Hp. simpl. destruct (step (st σ n) (σ n)) as [s'| |] eqn:E; [|done|done]. destruct Hn. split; [done|by eexists]. Qed.

  (** the owner never steps again after [n] *)
  Lemma opos_frozen n m : (∀ m, n ≤ m → ¬ takes σ (eq L_own) m) → n ≤ m → opos (st σ m) = opos (st σ n) ∧ stop (st σ m) = stop (st σ n).
  Proof.
    intros Hn. induction 1 as [|m Hle IH]; [done|]. destruct IH as [<- <-]. destruct (decide (σ m = L_own)) as [E|E].
    - by rewrite (not_taken (eq L_own) m (Hn m Hle) (eq_sym E)).
    - simpl. destruct (step (st σ m) (σ m)) as [s'| |] eqn:Es; [|done|done]. by apply (gstep_ow _ (σ m)).
  Qed.
  (** a quantity that every step of the collector decreases, while it can always go on *)
  Lemma gc_descends (f : state → nat) n : (∀ m, n ≤ m → ¬ takes σ (eq L_own) m) →
    (∀ m, n ≤ m → ∃ l, of_gc l ∧ planned l ∧ enabled (st σ m) l) →
    (∀ m s', n ≤ m → of_gc (σ m) → step (st σ m) (σ m) = Next s' → f s' < f (st σ m)) → False.
  Proof.
    intros Hno Hen Hdec. remember (f (st σ n)) as w eqn:Ew. assert (f (st σ n) ≤ w) as Hw by lia. clear Ew. revert n Hno Hen Hdec Hw.
    induction (lt_wf w) as [w _ IH]. intros n Hno Hen Hdec Hw.
    destruct (Hfg n Hen) as (m&Hm&Hg&[s' Hs']).
    assert (Hmono : ∀ k, n ≤ k → f (st σ k) ≤ f (st σ n)).
    { induction 1 as [|k Hk IHk]; [lia|]. etrans; [|exact IHk]. destruct (decide (σ k = L_own)) as [E|E].
      - by rewrite (not_taken (eq L_own) k (Hno k Hk) (eq_sym E)).
      - simpl. destruct (step (st σ k) (σ k)) as [s1| |] eqn:Es; [|done|done]. specialize (Hdec k s1 Hk E Es). lia. }
    pose proof (Hdec m s' Hm Hg Hs') as Hlt. pose proof (Hmono m Hm).
    refine (IH (f (st σ (S m))) _ (S m) _ _ _ _); [|intros k Hk; apply Hno; lia|intros k Hk; apply Hen; lia|intros k s1 Hk; apply Hdec; lia|done].
    simpl. rewrite Hs'. lia.
  Qed.
  Lemma no_more n : (∀ m, n ≤ m → ¬ takes σ (eq L_own) m) → False.
  Proof.
    intros Hno. destruct (Hfo n Hno) as (k&Hk&Hdis). assert (Hno' : ∀ m, k ≤ m → ¬ takes σ (eq L_own) m) by (intros m Hm; apply Hno; lia).
    assert (Hfr : ∀ m, k ≤ m → opos (st σ m) = opos (st σ k) ∧ stop (st σ m) = stop (st σ k)) by (intros; by apply opos_frozen).
    assert (Hgc : ∀ m, k ≤ m → ∃ l, of_gc l ∧ planned l ∧ enabled (st σ m) l).
    { intros m Hm. destruct (C29_no_deadlock (st σ m) (st_reach m) (Hnever m)) as (l&s'&Hp&Hs). exists l. split_and!; [|done|by eexists].
      intros ->. apply (Hdis m Hm). by eexists. }
    destruct (stop (st σ k)) eqn:Es.
    - apply (gc_descends gw k Hno' Hgc). intros m s' Hm Hg Hs. eapply gstep_gw; [apply st_inv| |exact Hg|exact Hs]. by rewrite (proj2 (Hfr m Hm)).
    - assert (Hlk : ∀ m, k ≤ m → held (st σ m) = Some O_coll).
      { intros m Hm. pose proof (Hdis m Hm) as Hd. pose proof (v_mem _ (st_inv m)) as Hme. pose proof (v_stop _ (st_inv m)) as Hst. rewrite (proj2 (Hfr m Hm)) in Hst.
        pose proof (v_held _ (st_inv m)) as Hh. unfold enabled in Hd. simpl in Hd. unfold ostep, alive in Hd.
        destruct (opos (st σ m)) as [[|x ms]| | | | | | |[|x ms]|] eqn:Eo; try done; try (destruct Hd; by eexists). rewrite Hme in Hd. simpl in Hd, Hh.
        destruct (held (st σ m)) as [o|] eqn:Eh; [|destruct Hd; by eexists]. rewrite Hh. by destruct (gpos (st σ m)) as [p|]; [destruct (in_crit p)|]. }
      apply (gc_descends cw k Hno' Hgc). intros m s' Hm Hg Hs. by apply (gstep_cw _ (σ m) s' (st_inv m) (Hlk m Hm) Hg Hs).
  Qed.
  Lemma never_false : False.
  Proof.
    assert (∀ w n, ow (st σ n) ≤ w → False) as H; [|by apply (H (ow (st σ 0)) 0)].
    intros w. induction (lt_wf w) as [w _ IH]. intros n Hw. apply (no_more n). intros m Hm Ht.
    assert (Hmono : ∀ k, n ≤ k → ow (st σ k) ≤ ow (st σ n)).
    { induction 1 as [|k Hk IHk]; [lia|]. etrans; [|exact IHk]. simpl. destruct (step (st σ k) (σ k)) as [s1| |] eqn:Es; [|done|done].
      destruct (decide (σ k = L_own)) as [E|E]; [rewrite E in Es; apply ostep_ow in Es; lia|]. unfold ow. by rewrite (proj1 (gstep_ow _ _ _ E Es)). }
    pose proof (Hmono m Hm). destruct Ht as [E [s' Hs]]. refine (IH (ow s') _ (S m) _); [|simpl; by rewrite Hs].
    rewrite <- E in Hs. apply ostep_ow in Hs. lia.
  Qed.
End fair.
Theorem C29_fair_executions_return σ : fair_owner σ → fair_gc σ → ¬ ∀ n, opos (st σ n) ≠ O_done.
Proof. intros Hfo Hfg Hn. by eapply never_false. Qed.

(** ** concrete cases *)
Definition built : list label := replicate 6 L_own.
(** the destructor sets stop while the collector waits: woken by the notification *)
Definition notified_run : list label := built ++ [L_gc; L_gc; L_gc; L_own; L_own; L_own; L_own; L_own; L_gc; L_gc; L_gc; L_gc] ++ replicate 7 L_own.
Example ex_notified : match run start notified_run with
  | Next s => opos s = O_done ∧ gpos s = Some G_exit ∧ map (mem s) decls = replicate 5 Dead ∧ accesses s = [Mtx; Stop; Mtx; Cv; Cv; Cv; Mtx; Stop; Mtx]
  | _ => False end.
Proof. vm_compute. split_and!; reflexivity. Qed.
(** stop is set during a traversal after a time-out: the notification finds nobody waiting *)
Definition traversing : list label := built ++ [L_gc; L_gc; L_gc; L_wake true; L_gc; L_gc; L_pass 2; L_gc; L_own; L_own; L_own; L_own; L_own].
Example ex_traversing : match run start traversing with
  | Next s => opos s = O_join ∧ gpos s = Some (G_pass 1) ∧ stop s = true ∧ notified s = false ∧ traversal s = 1 ∧ ostep s = Stuck ∧
      steps s (replicate 5 L_gc ++ replicate 7 L_own) = 12
  | _ => False end.
Proof. vm_compute. split_and!; reflexivity. Qed.
Example ex_traversing_ends : match run start (traversing ++ replicate 5 L_gc ++ replicate 7 L_own) with
  | Next s => opos s = O_done ∧ gpos s = Some G_exit | _ => False end.
Proof. vm_compute. split_and!; reflexivity. Qed.
(** the owner has to wait for the mutex *)
Example ex_waits : match run start (built ++ [L_gc; L_own; L_own; L_own]) with
  | Next s => opos s = O_lock ∧ held s = Some O_coll ∧ gpos s = Some G_test ∧ ostep s = Stuck ∧ steps s [L_gc; L_gc] = 2
  | _ => False end.
Proof. vm_compute. split_and!; reflexivity. Qed.
(** a fair execution: the threads in turn *)
Definition turns (n : nat) : label := if decide (n mod 2 = 0) then L_own else L_gc.
Example ex_turns : opos (st turns 24) = O_join ∧ opos (st turns 60) = O_done.
Proof. vm_compute. split_and!; reflexivity. Qed.

Lemma turns_end m : 60 ≤ m → opos (st turns m) = O_done ∧ gpos (st turns m) = Some G_exit.
Proof.
  induction 1 as [|m Hm [H1 H2]]; [vm_compute; split; reflexivity|]. simpl. unfold step, ostep. rewrite H1, H2.
  assert (gstep (st turns m) G_exit (turns m) = Stuck) as ->; [|by destruct (turns m)]. unfold turns. by case_decide.
Qed.
Lemma turns_disabled m l : 60 ≤ m → ¬ enabled (st turns m) l.
Proof. intros Hm [s' Hs]. destruct (turns_end m Hm) as [H1 H2]. unfold step, ostep in Hs. rewrite H1, H2 in Hs. by destruct l. Qed.
Example ex_fair : fair_owner turns ∧ fair_gc turns.
Proof.
  split.
  - intros n _. exists (n + 60). split; [lia|]. intros m Hm. apply turns_disabled. lia.
  - intros n H. destruct (H (n + 60)) as (l&_&_&He); [lia|]. exfalso. apply (turns_disabled (n + 60) l); [lia|done].
Qed.

Print Assumptions C29_no_undefined_behaviour.
Print Assumptions C29_no_access_after_join.
Print Assumptions C29_stop_not_raced.
Print Assumptions C29_no_deadlock.
Print Assumptions C29_terminates.
Print Assumptions C29_returns.
Print Assumptions C29_mutex_released.
Print Assumptions C29_fair_executions_return.
