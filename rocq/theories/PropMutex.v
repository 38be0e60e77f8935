(** C49: the recursive mutex, for arbitrary threads and schedules. *)
From Verif Require Import MutexSpec.

(** locks a thread still has to release *)
Definition open (i : item) : nat := match i with Unlock => 1 | _ => 0 end.
Definition opens (s : state) (t : tid) : nat := match threads s !! t with Some th => lsum open (th_code th) | None => 0 end.
Definition depth (s : state) (t : tid) : nat := match mtx s with Some (o, d) => if decide (o = t) then d else 0 | None => 0 end.
Record Inv (s : state) : Prop := {
  i_open t : opens s t = depth s t;
  i_pos : match mtx s with Some (_, 0) => False | _ => True end;
  i_log t : locks t (log s) = unlocks t (log s) + depth s t;
}.

Lemma lsum_do (b : list stmt) : lsum open (map Do b) = 0.
Proof. induction b; [done|]. simpl. by rewrite lsum_cons. Qed.
Lemma opens_set s t th t' : opens (set_thread t th s) t' = if decide (t' = t) then lsum open (th_code th) else opens s t'.
Proof. unfold opens, set_thread; simpl. case_decide; subst; [by rewrite lookup_insert|by rewrite lookup_insert_ne]. Qed.

Lemma inv_move s t k exc k' exc' : Inv s → threads s !! t = Some (Thread k exc) → lsum open k' = lsum open k → Inv (set_thread t (Thread k' exc') s).
Proof.
  intros [H1 H2 H3] Ht Hk. split; [|done|done]. intros t'. rewrite opens_set. change (depth (set_thread t (Thread k' exc') s) t') with (depth s t').
  rewrite <- H1. case_decide; subst; [|done]. unfold opens. by rewrite Ht.
Qed.

Lemma inv_unlock s t k exc exc' : Inv s → threads s !! t = Some (Thread (Unlock :: k) exc) →
  ∃ s', unlock t k exc' s = Next s' ∧ Inv s'.
Proof.
  intros [H1 H2 H3] Ht. pose proof (H1 t) as Ho. unfold opens, depth in Ho. rewrite Ht in Ho. simpl in Ho. rewrite lsum_cons in Ho. simpl in Ho.
  unfold unlock, m_unlock. destruct (mtx s) as [[o [|d]]|] eqn:Em; [done| |lia]. destruct (decide (o = t)) as [->|]; [|lia].
  eexists. split; [done|]. split; simpl.
  - intros t'. specialize (H1 t'). unfold opens, depth in *. simpl. rewrite Em in H1. destruct (decide (t' = t)) as [->|Hne].
    + rewrite lookup_insert. simpl. destruct (decide (d = 0)); [lia|]. rewrite decide_True by done. lia.
    + rewrite lookup_insert_ne, H1 by done. rewrite decide_False by congruence. destruct (decide (d = 0)); [done|]. by rewrite decide_False by congruence.
  - destruct (decide (d = 0)); [done|]. by destruct d.
  - intros t'. specialize (H3 t'). unfold depth in *. simpl. rewrite Em in H3. destruct (decide (t = t')) as [<-|].
    + destruct (decide (d = 0)); [lia|]. rewrite decide_True by done. lia.
    + destruct (decide (d = 0)); [lia|]. rewrite decide_False by done. lia.
Qed.

Lemma step_inv s l : Inv s → match step s l with Next s' => Inv s' | Stuck => True | Undef => False end.
Proof.
  intros HI. destruct l as [t fail]. simpl. destruct (threads s !! t) as [[k exc]|] eqn:Ht; [|done].
  destruct k as [|[c| |h] k]; [done| | |].
  - destruct exc; [by eapply inv_move|]. destruct c as [| |b|b h].
    + by eapply inv_move.
    + by eapply inv_move.
    + destruct fail; [by eapply inv_move|]. destruct (m_lock t (mtx s)) as [m|] eqn:El; [|done]. destruct HI as [H1 H2 H3].
      assert (∃ d, m = Some (t, S d) ∧ depth s t = d ∧ ∀ t', t' ≠ t → depth s t' = 0) as (d&->&Hd&Hoth).
      { unfold m_lock, depth in *. destruct (mtx s) as [[o d]|] eqn:Em; [|simplify_eq; by exists 0]. case_decide; simplify_eq.
        exists d. split_and!; [done|done|]. intros t' Hne. by rewrite decide_False by congruence. }
      split; simpl; [|done|].
      * intros t'. unfold opens, depth. simpl. destruct (decide (t' = t)) as [->|Hne].
        -- rewrite lookup_insert. simpl. rewrite decide_True by done. rewrite lsum_app, lsum_do, lsum_cons. simpl.
           pose proof (H1 t) as Ho. unfold opens in Ho. rewrite Ht in Ho. simpl in Ho. rewrite lsum_cons in Ho. simpl in Ho. lia.
        -- rewrite lookup_insert_ne by done. rewrite decide_False by congruence. transitivity (depth s t'); [apply H1|by apply Hoth].
      * intros t'. specialize (H3 t'). unfold depth. simpl. case_decide; subst; [lia|]. rewrite H3, Hoth by congruence. lia.
    + eapply inv_move; [done|exact Ht|]. rewrite lsum_app, lsum_do, !lsum_cons. done.
  - destruct (inv_unlock s t k exc exc HI Ht) as (s'&->&H). done.
  - destruct exc; [|by eapply inv_move]. eapply inv_move; [done|exact Ht|]. by rewrite lsum_app, lsum_do, lsum_cons.
Qed.
Lemma run_inv ls s : Inv s → match run s ls with Next s' => Inv s' | Stuck => False | Undef => False end.
Proof.
  revert s. induction ls as [|l ls IH]; intros s HI; simpl; [done|]. pose proof (step_inv s l HI). destruct (step s l); [by apply IH|by apply IH|done].
Qed.
Lemma start_thread ps t th : threads (start ps) !! t = Some th → ∃ b, th = Thread (map Do b) false.
Proof.
  simpl. intros H%elem_of_list_to_map_2. apply elem_of_lookup_imap in H as (i&b&?&_). simplify_eq. eauto.
Qed.
Lemma start_inv ps : Inv (start ps).
Proof.
  split; [|done|done]. intros t. unfold opens, depth. simpl (mtx _). destruct (threads (start ps) !! t) as [th|] eqn:E; [|done].
  apply start_thread in E as (b&->). simpl. apply lsum_do.
Qed.
Lemma reach_inv s : reachable s → Inv s.
Proof. intros (ps&ls&Hr). pose proof (run_inv ls (start ps) (start_inv ps)) as H. by rewrite Hr in H. Qed.

(** ** the theorems *)

(** scoped_lock never unlocks a mutex its thread does not own *)
Theorem C49_no_undefined_behaviour ps ls : ∃ s, run (start ps) ls = Next s.
Proof. pose proof (run_inv ls (start ps) (start_inv ps)) as H. destruct (run (start ps) ls); [eauto|done|done]. Qed.

(** mutual exclusion: of two threads, one has released all it has locked *)
Theorem C49_mutual_exclusion s t u : reachable s → t ≠ u →
  locks t (log s) = unlocks t (log s) ∨ locks u (log s) = unlocks u (log s).
Proof.
  intros Hr Hne. destruct (reach_inv s Hr) as [_ _ H3]. pose proof (H3 t) as Ht. pose proof (H3 u) as Hu. unfold depth in *.
  destruct (mtx s) as [[o d]|]; [|left; lia]. destruct (decide (o = t)) as [->|]; [|left; lia].
  rewrite decide_False in Hu by done. right; lia.
Qed.

(** free exactly if every lock has been matched by an unlock *)
Theorem C49_free s : reachable s → (mtx s = None ↔ ∀ t, locks t (log s) = unlocks t (log s)).
Proof.
  intros Hr. destruct (reach_inv s Hr) as [_ H2 H3]. split.
  - intros E t. rewrite (H3 t). unfold depth. rewrite E. lia.
  - intros H. destruct (mtx s) as [[o d]|] eqn:E; [|done]. specialize (H o). specialize (H3 o). unfold depth in H3. rewrite E in H3.
    rewrite decide_True in H3 by done. destruct d; [done|lia].
Qed.

(** the owner can lock again at once; others wait *)
Theorem C49_recursive s t b k : reachable s → threads s !! t = Some (Thread (Do (SLock b) :: k) false) →
  ((∃ s', step s (t, false) = Next s' ∧ log s' = Locked t :: log s) ↔ ∀ u, u ≠ t → locks u (log s) = unlocks u (log s)).
Proof.
  intros Hr Ht. destruct (reach_inv s Hr) as [_ H2 H3]. simpl. rewrite Ht. unfold m_lock. split.
  - intros (s'&Hs&_) u Hne. rewrite (H3 u). unfold depth. destruct (mtx s) as [[o d]|]; [|lia]. case_decide; [|done]. subst. rewrite decide_False by congruence. lia.
  - intros H. destruct (mtx s) as [[o d]|] eqn:E; [|by eexists]. destruct (decide (o = t)) as [->|Hne]; [by eexists|]. exfalso.
    specialize (H o Hne). specialize (H3 o). unfold depth in H3. rewrite E in H3. rewrite decide_True in H3 by done. destruct d; [done|lia].
Qed.

(** a finished thread, whether it returned or was left by an exception, has
    released exactly what it acquired *)
Theorem C49_all_released s t : reachable s → finished s t → locks t (log s) = unlocks t (log s).
Proof.
  intros Hr Hf. destruct (reach_inv s Hr) as [H1 _ H3]. rewrite (H3 t), <- H1. unfold opens. destruct (threads s !! t) as [th|] eqn:E; [|lia].
  rewrite (Hf th E), lsum_nil. lia.
Qed.

(** a block [b] run alone, from any point of any execution and whatever it
    throws or nests, leaves the mutex as it was *)
Theorem C49_block_balanced s t b k ls s' exc' : reachable s → threads s !! t = Some (Thread (map Do b ++ k) false) →
  run s ls = Next s' → Forall (λ l, l.1 = t) ls → threads s' !! t = Some (Thread k exc') → mtx s' = mtx s.
Proof.
  intros Hr Ht Hrun Hl Ht'. pose proof (reach_inv s Hr) as HI. pose proof (run_inv ls s HI) as HI'. rewrite Hrun in HI'.
  assert (opens s' t = opens s t) as E. { unfold opens. rewrite Ht, Ht'. simpl. by rewrite lsum_app, lsum_do. }
  rewrite (i_open _ HI), (i_open _ HI') in E.
  assert (Ho : ∀ u, u ≠ t → threads s' !! u = threads s !! u).
  { intros u Hu. clear -Hrun Hl Hu. revert s Hrun. induction Hl as [|[t' fail] ls Et _ IH]; intros s Hrun; cbn [run] in Hrun; [by simplify_eq|].
    simpl in Et. subst t'. destruct (step s (t, fail)) as [s1| |] eqn:Es; [|by apply IH|done]. rewrite (IH s1 Hrun). simpl in Es.
    unfold unlock, set_thread in Es. repeat case_match; simplify_eq; simpl; by rewrite lookup_insert_ne. }
  assert (Hd : ∀ u, depth s' u = depth s u).
  { intros u. destruct (decide (u = t)) as [->|Hu]; [done|]. rewrite <- (i_open _ HI), <- (i_open _ HI'). unfold opens. by rewrite Ho. }
  pose proof (i_pos _ HI) as P1. pose proof (i_pos _ HI') as P2. unfold depth in Hd.
  destruct (mtx s') as [[o d]|], (mtx s) as [[o' d']|]; [| | |done].
  - pose proof (Hd o) as E1. rewrite decide_True in E1 by done. destruct (decide (o' = o)) as [->|]; [congruence|]. subst d. done.
  - pose proof (Hd o) as E1. rewrite decide_True in E1 by done. by subst d.
  - pose proof (Hd o') as E1. rewrite decide_True in E1 by done. by subst d'.
Qed.

(** no deadlock: a thread that cannot go on waits for one that can *)
Theorem C49_progress s t : reachable s → ¬ finished s t → ∃ u s', step s (u, false) = Next s' ∧
  (u = t ∨ unlocks u (log s) < locks u (log s)).
Proof.
  intros Hr Hf. pose proof (reach_inv s Hr) as HI.
  assert (Hgo : ∀ u i k exc, threads s !! u = Some (Thread (i :: k) exc) → (∃ s', step s (u, false) = Next s') ∨
     (∃ b, i = Do (SLock b)) ∧ ∃ o d, mtx s = Some (o, d) ∧ o ≠ u).
  { intros u i k exc Hu. pose proof (step_inv s (u, false) HI) as Hok. simpl in *. rewrite Hu in *. unfold unlock, m_lock in *.
    destruct i as [c| |h]; repeat case_match; eauto 10; simplify_eq; try done. }
  unfold finished in Hf. destruct (threads s !! t) as [[k exc]|] eqn:Et; [|by destruct Hf; intros ? [=]].
  destruct k as [|i k]; [destruct Hf; intros th [= <-]; done|].
  destruct (Hgo t i k exc Et) as [[s' Hs]|[_ (o&d&Em&Hne)]]; [exists t, s'; auto|].
  pose proof (i_open _ HI o) as Ho. pose proof (i_log _ HI o) as Hlo. pose proof (i_pos _ HI) as Hp. rewrite Em in Hp.
  unfold depth in Ho, Hlo. rewrite Em in Ho, Hlo. rewrite decide_True in Ho, Hlo by done. unfold opens in Ho.
  assert (d > 0) by (destruct d; [done|lia]). destruct (threads s !! o) as [[ko eo]|] eqn:Eo; [|lia]. simpl in Ho.
  destruct ko as [|io ko]; [rewrite lsum_nil in Ho; lia|].
  destruct (Hgo o io ko eo Eo) as [[s' Hs]|[_ (o'&d'&Em'&Hne')]]; [|congruence]. exists o, s'. split; [done|]. right. lia.
Qed.

(** every thread finishes after a bounded number of steps *)
Fixpoint ssize (s : stmt) : nat :=
  match s with
  | SWork | SThrow => 1
  | SLock b => 2 + sum_list_with ssize b
  | STry b h => 2 + sum_list_with ssize b + sum_list_with ssize h
  end.
Definition isize (i : item) : nat := match i with Do s => ssize s | Unlock => 1 | Catch h => 1 + sum_list_with ssize h end.
Definition tsize (th : thread) : nat := lsum isize (th_code th).
Definition size (s : state) : nat := msum tsize (threads s).
Lemma lsum_isize b : lsum isize (map Do b) = sum_list_with ssize b.
Proof. induction b; [done|]. simpl. by rewrite lsum_cons, IHb. Qed.
Lemma ssize_pos c : 0 < ssize c.
Proof. destruct c; simpl; lia. Qed.
Lemma step_size s l s' : step s l = Next s' → size s' < size s.
Proof.
  destruct l as [t fail]. simpl. destruct (threads s !! t) as [[k exc]|] eqn:Et; [|done].
  assert (Hset : ∀ th' m lg, tsize th' < tsize (Thread k exc) → size (State m (<[t:=th']> (threads s)) lg) < size s).
  { intros th' m lg H. unfold size. simpl. pose proof (msum_upd tsize (threads s) t _ th' Et). lia. }
  intros Hs. destruct k as [|i k]; [done|]. unfold unlock, set_thread in Hs.
  destruct i as [[| |b|b h]| |h]; repeat case_match; simplify_eq; apply Hset; unfold tsize; simpl; rewrite ?lsum_app, ?lsum_cons, ?lsum_isize; simpl; lia.
Qed.
Theorem C49_terminates s ls : steps s ls ≤ size s.
Proof.
  revert s. induction ls as [|l ls IH]; intros s; simpl; [lia|]. destruct (step s l) as [s'| |] eqn:E; [|apply IH|lia].
  apply step_size in E. specialize (IH s'). lia.
Qed.

(** ** concrete cases: thread 0 locks twice, throwing in the inner block with
    the exception caught outside; thread 1 locks *)
Definition progs : list (list stmt) := [[STry [SLock [SWork; SLock [SThrow; SWork]; SWork]] [SWork]; SLock [SWork]]; [SLock [SWork]; SThrow; SWork]].
Definition sched : list (tid * bool) := [(0, false); (0, false); (1, false); (0, false); (0, false); (1, false)].
Example inside : match run (start progs) sched with
  | Next s => mtx s = Some (0, 2) ∧ log s = [Locked 0; Locked 0] ∧ locks 0 (log s) = 2 ∧ unlocks 0 (log s) = 0 ∧ step s (1, false) = Stuck
  | _ => False end.
Proof. vm_compute. split_and!; reflexivity. Qed.
Example through : match run (start progs) (sched ++ replicate 12 (0, false) ++ replicate 8 (1, false)) with
  | Next s => mtx s = None ∧ log s = [Unlocked 1; Locked 1; Unlocked 0; Locked 0; Unlocked 0; Unlocked 0; Locked 0; Locked 0] ∧
      threads s !! 0 = Some (Thread [] false) ∧ threads s !! 1 = Some (Thread [] true)
  | _ => False end.
Proof. vm_compute. split_and!; reflexivity. Qed.
(** lock() itself throws *)
Example failing : match run (start [[STry [SLock [SWork]] []; SWork]]) [(0, false); (0, true); (0, false); (0, false)] with
  | Next s => mtx s = None ∧ log s = [] ∧ threads s !! 0 = Some (Thread [] false)
  | _ => False end.
Proof. vm_compute. split_and!; reflexivity. Qed.
Example bound : size (start progs) = 19 ∧ steps (start progs) (sched ++ replicate 20 (0, false) ++ replicate 20 (1, false)) = 19.
Proof. vm_compute. split_and!; reflexivity. Qed.

Print Assumptions C49_no_undefined_behaviour.
Print Assumptions C49_mutual_exclusion.
Print Assumptions C49_free.
Print Assumptions C49_recursive.
Print Assumptions C49_all_released.
Print Assumptions C49_block_balanced.
Print Assumptions C49_progress.
Print Assumptions C49_terminates.
