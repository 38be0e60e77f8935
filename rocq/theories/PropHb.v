(** C57: accesses are ordered by happens-before. *)
From Verif Require Import Hb.

Definition h_ref (p : pc) : nat := match p with CDel | Unlock true | DRef => 1 | _ => 0 end.
Definition h_pend (p : pc) : nat := match p with DLock | DDel => 1 | _ => 0 end.
Definition h_new (p : pc) : nat := match p with CDel => 1 | _ => 0 end.
Definition h_use (p : pc) : nat := match p with CRef | CDel | Unlock true | KRef _ | GGet _ | DRef | DLock | DDel => 1 | _ => 0 end.
Definition locked (p : pc) : bool := match p with CIns | CRef | CDel | Unlock _ | DDel | OFac => true | _ => false end.
(** what it does is known to nobody else *)
Definition carries (p : pc) : bool := match p with KRef _ | GGet _ | DRef => true | _ => false end.
Definition one {X} (_ : X) : nat := 1.

Section proofs.
  Context (inc_sync : bool).
  Notation step := (step inc_sync true true).
  Notation run := (run inc_sync true true).
  Definition reachable (s : state) : Prop := ∃ ls, run init ls = Next s.

  (** known to whoever holds, or next takes, the mutex *)
  Definition public (s : state) : gset nat := match own s with Some u => knows s u | None => mset s end.

  (** what every reachable state satisfies, apart from accesses to the entry *)
  Record base (s : state) : Prop := Base {
    b_own : ∀ t, own s = Some t ↔ ∃ p, thr s !! t = Some p ∧ locked p = true;
    b_mset : ∀ t, own s = Some t → mset s ⊆ knows s t;
    b_fac : ∀ e, lfac s = Some e → e ∈ public s;
    b_use : ∀ t p x, thr s !! t = Some p → uses x p = true → is_Some (objs s !! x);
    b_nob : ∀ x, nob s ≤ x → objs s !! x = None;
  }.
  Record entry_ok (s : state) (n : entry) : Prop := EntryOk {
    n_ref : ref n = Z.of_nat (msum one (objs s) + msum h_ref (thr s));
    n_del : (del n = (if bool_decide (0 < ref n)%Z then 1 else 0) + Z.of_nat (msum h_pend (thr s)) - Z.of_nat (msum h_new (thr s)))%Z;
    n_val : val n ∈ public s;
    n_ldel : ∀ e, ldel n = Some e → e ∈ public s;
    n_obj : ∀ x w r, objs s !! x = Some (w, r) → val n ∈ w;
    n_thr : ∀ t p, thr s !! t = Some p → carries p = true → val n ∈ knows s t;
    n_evs : ∀ e, e ∈ evs n → e ∈ cset n ∨ e ∈ public s ∨ (∃ x w r, objs s !! x = Some (w, r) ∧ (e ∈ w ∨ e ∈ r)) ∨
              (∃ t p, thr s !! t = Some p ∧ carries p = true ∧ e ∈ knows s t);
    n_zero : ref n = 0%Z → cset n ⊆ public s ∨ ∃ t p, thr s !! t = Some p ∧ h_pend p = 1 ∧ cset n ⊆ knows s t;
  }.
  Definition inv (s : state) : Prop :=
    base s ∧ match ent s with Some n => entry_ok s n | None => objs s = ∅ ∧ msum h_use (thr s) = 0 end.

  Lemma knows_insert (t u : nat) (E : gset nat) (k : gmap nat (gset nat)) :
    default ∅ (<[t:=E]> k !! u) = if decide (u = t) then E else (default ∅ (k !! u) : gset nat).
  Proof. case_decide as Hu; [subst; by rewrite lookup_insert|by rewrite lookup_insert_ne]. Qed.
  Lemma knows_learn t E s u : knows (learn t E s) u = if decide (u = t) then knows s t ∪ E else knows s u.
  Proof. apply knows_insert. Qed.
  Lemma knows_event t s u : knows (event t s) u = if decide (u = t) then knows s t ∪ {[nxt s]} else knows s u.
  Proof. apply knows_insert. Qed.

  Definition move (t : nat) (q : option pc) (m : gmap nat pc) : gmap nat pc := match q with Some q => <[t:=q]> m | None => delete t m end.
  Definition carriesO (q : option pc) : bool := match q with Some q => carries q | None => false end.
  Lemma move_lookup t q m u : move t q m !! u = if decide (u = t) then q else m !! u.
  Proof.
    case_decide as Hu; [subst|]; destruct q; simpl; by rewrite ?lookup_insert, ?lookup_delete, ?lookup_insert_ne, ?lookup_delete_ne.
  Qed.
  (** one thread moves on, knowledge grows *)
  Record grows (s s' : state) (t : nat) (q : option pc) : Prop := Grows {
    g_thr : thr s' = move t q (thr s);
    g_oth : ∀ u, u ≠ t → knows s' u = knows s u;
    g_kn : knows s t ⊆ knows s' t;
    g_pub : public s ⊆ public s';
  }.
  Lemma grows_knows s s' t q u : grows s s' t q → knows s u ⊆ knows s' u.
  Proof. intros Gr. destruct (decide (u = t)) as [->|Hu]; [apply Gr|by rewrite (g_oth _ _ _ _ Gr)]. Qed.
  Definition held (s : state) (n : entry) (e : nat) : Prop :=
    e ∈ cset n ∨ e ∈ public s ∨ ∃ x w r, objs s !! x = Some (w, r) ∧ (e ∈ w ∨ e ∈ r).
  Lemma entry_step s s' n n' t q : grows s s' t q → entry_ok s n → val n' = val n → cset n ⊆ cset n' →
    ref n' = Z.of_nat (msum one (objs s') + msum h_ref (thr s')) →
    (del n' = (if bool_decide (0 < ref n')%Z then 1 else 0) + Z.of_nat (msum h_pend (thr s')) - Z.of_nat (msum h_new (thr s')))%Z →
    (ldel n' = ldel n ∨ ∃ e, ldel n' = Some e ∧ e ∈ public s') →
    (∀ x w r, objs s' !! x = Some (w, r) → val n ∈ w) →
    (∀ x w r, objs s !! x = Some (w, r) → (∃ w' r', objs s' !! x = Some (w', r') ∧ w ⊆ w' ∧ r ⊆ r') ∨ (w ∪ r ⊆ knows s' t ∧ carriesO q = true)) →
    (carriesO q = true → val n ∈ knows s' t) →
    (carriesO q = false → (∃ p, thr s !! t = Some p ∧ carries p = true) ∨ evs n' ≠ evs n → ∀ e, e ∈ knows s' t → held s' n' e) →
    evs n' ⊆ evs n ∪ knows s' t →
    (ref n' = 0%Z → cset n' ⊆ public s' ∨ ∃ u p, thr s' !! u = Some p ∧ h_pend p = 1 ∧ cset n' ⊆ knows s' u) →
    entry_ok s' n'.
  Proof.
    intros Gr I Ev Ec Hr Hd Hl Ho Hk Hc Hh He Hz. pose proof (λ u, grows_knows _ _ _ _ u Gr) as Gk. destruct Gr as [Gt Go _ Gp].
    destruct I as [Ir Id Iv Il Io It Ie Iz]. split; try done.
    - rewrite Ev. by apply Gp.
    - intros e E. destruct Hl as [Hl|(e' & Hl & Hp)]; [apply Gp, Il; congruence|congruence].
    - rewrite Ev. done.
    - intros u p Hu Hp. rewrite Ev. rewrite Gt, move_lookup in Hu. case_decide as Hut; [subst; by apply Hc|].
      rewrite Go by done. by eapply It.
    - assert (carriesO q = true → ∀ e, e ∈ knows s' t → ∃ t p, thr s' !! t = Some p ∧ carries p = true ∧ e ∈ knows s' t) as Hq.
      { intros Hq e Het. destruct q as [q|]; [|done]. exists t, q. split; [|done]. rewrite Gt, move_lookup. by rewrite decide_True. }
      assert (∀ e, held s' n' e → e ∈ cset n' ∨ e ∈ public s' ∨ (∃ x w r, objs s' !! x = Some (w, r) ∧ (e ∈ w ∨ e ∈ r)) ∨
              (∃ t p, thr s' !! t = Some p ∧ carries p = true ∧ e ∈ knows s' t)) as Hheld by (intros e [?|[?|?]]; auto).
      intros e Hin. destruct (decide (e ∈ evs n)) as [Hold|Hnew].
      + destruct (Ie e Hold) as [?|[?|[(x & w & r & Hx & Hor)|(u & p & Hu & Hp & Hk')]]]; [auto|auto|..].
        * destruct (Hk _ _ _ Hx) as [(w' & r' & Hx' & Hw & Hr')|[Hwr Hq']]; [|do 3 right; apply Hq; [done|set_solver]].
          right; right; left. exists x, w', r'. split; [done|]. destruct Hor; auto.
        * destruct (decide (u = t)) as [->|Hut].
          -- apply Gk in Hk'. destruct (carriesO q) eqn:Eq; [by do 3 right; apply Hq|]. apply Hheld, Hh; eauto.
          -- do 3 right. exists u, p. rewrite Gt, move_lookup, decide_False by done. split; [done|]. split; [done|]. by apply Gk.
      + assert (e ∈ knows s' t) as Het by (apply He in Hin; set_solver). destruct (carriesO q) eqn:Eq; [by do 3 right; apply Hq|].
        apply Hheld, Hh; [done| |done]. right. intros E. rewrite E in Hin. done.
  Qed.
  Lemma base_step s s' t q : grows s s' t q → base s →
    (∀ u, own s' = Some u ↔ ∃ p, thr s' !! u = Some p ∧ locked p = true) →
    (∀ u, own s' = Some u → mset s' ⊆ knows s' u) →
    (lfac s' = lfac s ∨ ∃ e, lfac s' = Some e ∧ e ∈ public s') →
    (∀ u p x, thr s !! u = Some p → u ≠ t → uses x p = true → is_Some (objs s !! x) → is_Some (objs s' !! x)) →
    (∀ p x, q = Some p → uses x p = true → is_Some (objs s' !! x)) →
    (∀ x, nob s' ≤ x → objs s' !! x = None) → base s'.
  Proof.
    intros Gr I Ho Hm Hf Hu Hq Hn. destruct Gr as [Gt _ _ Gp]. destruct I as [Io Im If Iu In]. split; try done.
    - intros e E. destruct Hf as [Hf|(e' & Hf & Hp)]; [apply Gp, If; congruence|congruence].
    - intros u p x Hp Hx. rewrite Gt, move_lookup in Hp. case_decide; [subst; by eapply Hq|]. eapply Hu; try done. by eapply Iu.
  Qed.
  (** the mutex stays with whom it is *)
  Lemma own_same s s' t p q : base s → thr s' = move t q (thr s) → own s' = own s → thr s !! t = p →
    match p with Some p => locked p | None => false end = match q with Some q => locked q | None => false end →
    ∀ u, own s' = Some u ↔ ∃ p, thr s' !! u = Some p ∧ locked p = true.
  Proof.
    intros I Ht Eo Hp Hl u. rewrite Eo, (b_own _ I), Ht, move_lookup. case_decide as Hut; [subst u|done]. rewrite Hp.
    destruct p as [p|], q as [q|]; split; intros (r & Hr & Hlr); simplify_eq; try (eexists; split; [done|]; congruence); congruence.
  Qed.
  Lemma own_only s t p u q : base s → thr s !! t = Some p → locked p = true → thr s !! u = Some q → locked q = true → u = t.
  Proof.
    intros I Ht Hp Hu Hq. assert (own s = Some t) by (apply (b_own _ I); eauto). assert (own s = Some u) by (apply (b_own _ I); eauto). congruence.
  Qed.

  Lemma grows_intro s s' t q E : (∀ u, knows s' u = if decide (u = t) then E else knows s u) → thr s' = move t q (thr s) →
    knows s t ⊆ E → public s ⊆ public s' → grows s s' t q.
  Proof. intros Hk Ht HE Hp. split; [done|intros u Hu; rewrite Hk; by rewrite decide_False|rewrite Hk; by rewrite decide_True|done]. Qed.
  Lemma public_same s s' : own s' = own s → mset s ⊆ mset s' → (∀ u, knows s u ⊆ knows s' u) → public s ⊆ public s'.
  Proof. intros Eo Hm Hk. unfold public. rewrite Eo. destruct (own s); done. Qed.
  Lemma public_own s t : own s = Some t → public s = knows s t.
  Proof. unfold public. by intros ->. Qed.
  Lemma own_of s t p : base s → thr s !! t = Some p → locked p = true → own s = Some t.
  Proof. intros I Ht Hp. apply (b_own _ I). eauto. Qed.
  Definition onO (f : pc → nat) (q : option pc) : nat := match q with Some q => f q | None => 0 end.
  Lemma msum_move f t q (m : gmap nat pc) : msum f (move t q m) + onO f (m !! t) = msum f m + onO f q.
  Proof.
    destruct (m !! t) as [p|] eqn:Ep, q as [q|]; simpl.
    - by apply msum_upd.
    - pose proof (msum_delete f m t p Ep). lia.
    - rewrite msum_new by done. lia.
    - by rewrite delete_notin by done.
  Qed.
  Lemma knows_upd s' s t E : kn s' = <[t:=E]> (kn s) → ∀ u, knows s' u = if decide (u = t) then E else knows s u.
  Proof. intros H u. unfold knows. rewrite H. apply knows_insert. Qed.

  (** nothing but the thread, its knowledge and the mutex changes, and no use of the entry begins or ends *)
  Lemma inv_pure s s' t q : inv s → grows s s' t q →
    (∀ u, own s' = Some u ↔ ∃ p, thr s' !! u = Some p ∧ locked p = true) → (∀ u, own s' = Some u → mset s' ⊆ knows s' u) →
    ent s' = ent s → lfac s' = lfac s → objs s' = objs s → nob s' = nob s →
    onO h_ref (thr s !! t) = onO h_ref q → onO h_pend (thr s !! t) = onO h_pend q → onO h_new (thr s !! t) = onO h_new q →
    onO h_use (thr s !! t) = onO h_use q → carriesO (thr s !! t) = carriesO q → (∀ x p, q = Some p → uses x p = true → carriesO (thr s !! t) = true ∧ ∃ p0, thr s !! t = Some p0 ∧ uses x p0 = true) →
    inv s'.
  Proof.
    intros [B I] Gr Ho Hm He Hf Hob Hn H1 H2 H3 H4 H5 H6.
    pose proof (msum_move h_ref t q (thr s)) as M1. pose proof (msum_move h_pend t q (thr s)) as M2.
    pose proof (msum_move h_new t q (thr s)) as M3. pose proof (msum_move h_use t q (thr s)) as M4.
    pose proof (g_thr _ _ _ _ Gr) as Et. split.
    - eapply base_step; [done|done|done|done|by left|..].
      + intros u p x _ _ _. by rewrite Hob.
      + intros p x Hq Hx. rewrite Hob. destruct (H6 x p Hq Hx) as (_ & p0 & Hp0 & Hx0). by eapply (b_use _ B).
      + rewrite Hn, Hob. apply B.
    - rewrite He. destruct (ent s) as [n|] eqn:En; [|rewrite Hob, Et; split; [apply I|lia]].
      eapply (entry_step s s' n n); rewrite ?Hob, ?Et; [done|done|done|done|..].
      + rewrite (n_ref _ _ I). lia.
      + rewrite (n_del _ _ I). lia.
      + by left.
      + apply I.
      + intros x w r Hx. left. eauto.
      + rewrite <- H5. intros Hc. eapply grows_knows; [done|]. destruct (thr s !! t) eqn:E; [|done]. by eapply (n_thr _ _ I).
      + rewrite <- H5. intros Hc [(p & Hp & Hpc)|]; [|done]. rewrite Hp in Hc. simpl in Hc. congruence.
      + set_solver.
      + intros Hz. destruct (n_zero _ _ I Hz) as [Hz'|(u & p & Hu & Hp & Hc)]; [left; etrans; [done|apply Gr]|].
        right. destruct (decide (u = t)) as [->|Hut].
        * destruct q as [q|]; rewrite Hu in H2; simpl in H2; [|lia]. exists t, q. rewrite move_lookup, decide_True by done.
          split; [done|]. split; [lia|]. etrans; [done|]. by eapply grows_knows.
        * exists u, p. rewrite move_lookup, decide_False by done. split; [done|]. split; [done|]. etrans; [done|]. by eapply grows_knows.
  Qed.

  Lemma acquire_inv s t p q : inv s → thr s !! t = Some p → locked p = false → locked q = true → h_ref p = h_ref q → h_pend p = h_pend q →
    h_new p = h_new q → h_use p = h_use q → carries p = carries q → (∀ x, uses x q = false) →
    match acquire t q s with Next s' => inv s' | Stuck => True | Bad => False end.
  Proof.
    intros I Hp Lp Lq H1 H2 H3 H4 H5 H6. unfold acquire. destruct (own s) eqn:Eo; [done|]. pose proof (proj1 I) as B.
    assert (∀ u r, thr s !! u = Some r → locked r = false) as Hfree.
    { intros u r Hr. destruct (locked r) eqn:El; [|done]. pose proof (own_of _ _ _ B Hr El). congruence. }
    set (s' := State _ _ _ _ _ _ _ _ _). pose proof (knows_upd s' s t (knows s t ∪ mset s) eq_refl) as Hk.
    eapply (inv_pure s s' t (Some q)); try done; rewrite ?Hp; simpl; try congruence.
    - eapply grows_intro; [done|done|set_solver|]. unfold public at 1. rewrite Eo. rewrite (public_own s' t) by done. rewrite Hk, decide_True by done. set_solver.
    - intros u. split.
      + intros [= <-]. exists q. by rewrite lookup_insert.
      + intros (r & Hr & Lr). destruct (decide (u = t)) as [->|Hut]; [done|]. rewrite lookup_insert_ne in Hr by done. by rewrite (Hfree u r Hr) in Lr.
    - intros u [= <-]. rewrite Hk, decide_True by done. set_solver.
  Qed.

  (** a step of the thread that holds the mutex *)
  Lemma base_in s s' t p q E : inv s → thr s !! t = Some p → locked p = true → locked q = true → kn s' = <[t:=E]> (kn s) →
    thr s' = <[t:=q]> (thr s) → knows s t ⊆ E → own s' = own s → mset s' = mset s → objs s' = objs s → nob s' = nob s →
    (lfac s' = lfac s ∨ ∃ e, lfac s' = Some e ∧ e ∈ E) → base s' ∧ grows s s' t (Some q) ∧ public s' = E.
  Proof.
    intros [B _] Hp Lp Lq Hk Ht HE Eo Em Eb En Hf. pose proof (own_of _ _ _ B Hp Lp) as Ho. pose proof (knows_upd _ _ _ _ Hk) as Hk'.
    assert (public s' = E) as Hpub by (rewrite (public_own s' t) by congruence; by rewrite Hk', decide_True).
    assert (grows s s' t (Some q)) as Gr.
    { eapply grows_intro; [done|done|done|]. rewrite Hpub. by rewrite (public_own s t). }
    split; [|done]. eapply base_step; [done|done|..].
    - eapply (own_same s s' t (Some p) (Some q)); try done. by rewrite Lp, Lq.
    - intros u Hu. rewrite Eo, Ho in Hu. simplify_eq. rewrite Hk', decide_True, Em by done. etrans; [by apply B|done].
    - by rewrite Hpub.
    - intros u r x _ _ _. by rewrite Eb.
    - intros r x [= <-] Hx. by destruct q.
    - rewrite En, Eb. apply B.
  Qed.
  Lemma entry_in s s' n n' t p q : base s → entry_ok s n → grows s s' t (Some q) → public s' = knows s' t → thr s !! t = Some p → locked p = true →
    locked q = true → objs s' = objs s →
    val n' = val n → cset n ⊆ cset n' → (ref n' = 0%Z → ref n = 0%Z ∧ cset n' = cset n) →
    ref n' = Z.of_nat (msum one (objs s) + msum h_ref (thr s')) →
    (del n' = (if bool_decide (0 < ref n')%Z then 1 else 0) + Z.of_nat (msum h_pend (thr s')) - Z.of_nat (msum h_new (thr s')))%Z →
    (ldel n' = ldel n ∨ ∃ e, ldel n' = Some e ∧ e ∈ public s') → evs n' ⊆ evs n ∪ knows s' t → entry_ok s' n'.
  Proof.
    intros B I Gr Hpub Hp Lp Lq Eb Ev Ec Hz Hr Hd Hl He. eapply entry_step; try done; rewrite ?Eb.
    - done.
    - apply I.
    - intros x w r Hx. left. eauto.
    - by destruct q.
    - intros _ _ e Hin. right; left. by rewrite Hpub.
    - intros Hz'. destruct (Hz Hz') as [Hz0 ->]. destruct (n_zero _ _ I Hz0) as [Hz1|(u & r & Hu & Hr1 & Hc)]; [left; etrans; [done|apply Gr]|].
      destruct (decide (u = t)) as [->|Hut].
      + left. rewrite Hpub. etrans; [done|]. by eapply grows_knows.
      + right. exists u, r. rewrite (g_thr _ _ _ _ Gr), move_lookup, decide_False by done. split; [done|]. split; [done|]. etrans; [done|]. by eapply grows_knows.
  Qed.
  Lemma fac_ok s t p : inv s → thr s !! t = Some p → locked p = true → known (lfac s) (knows s t) = true.
  Proof.
    intros [B _] Hp Lp. unfold known. destruct (lfac s) as [e|] eqn:E; [|done]. apply bool_decide_eq_true.
    rewrite <- (public_own s t); [by apply B|by eapply own_of].
  Qed.
  Lemma val_ok s t p n : inv s → ent s = Some n → thr s !! t = Some p → locked p || carries p = true → val n ∈ knows s t.
  Proof.
    intros [B I] En Hp Hl. rewrite En in I. destruct (carries p) eqn:Ec; [by eapply (n_thr _ _ I)|].
    rewrite orb_false_r in Hl. rewrite <- (public_own s t); [apply I|by eapply own_of].
  Qed.
  Lemma used_entry s t p : inv s → thr s !! t = Some p → h_use p = 1 → ∃ n, ent s = Some n.
  Proof.
    intros [_ I] Hp Hu. destruct (ent s) as [n|]; [by exists n|]. destruct I as [_ Hz]. pose proof (proj1 (msum_zero _ _) Hz t p Hp). lia.
  Qed.
  Ltac sums t q m Hp := pose proof (msum_move h_ref t q m) as M1; pose proof (msum_move h_pend t q m) as M2;
    pose proof (msum_move h_new t q m) as M3; pose proof (msum_move h_use t q m) as M4; rewrite Hp in M1, M2, M3, M4; simpl in M1, M2, M3, M4.

  (** accesses by the holder of the mutex that leave the counters alone *)
  Lemma inv_in s s' t p q E : inv s → thr s !! t = Some p → locked p = true → locked q = true → kn s' = <[t:=E]> (kn s) →
    thr s' = <[t:=q]> (thr s) → knows s t ⊆ E → own s' = own s → mset s' = mset s → objs s' = objs s → nob s' = nob s →
    (lfac s' = lfac s ∨ ∃ e, lfac s' = Some e ∧ e ∈ E) →
    h_ref p = h_ref q → h_pend p = h_pend q → h_new p = h_new q → (h_use p = 0 → ent s = None → h_use q = 0) → (h_use p = 0 ∨ is_Some (ent s)) →
    match ent s with
    | Some n => ∃ n', ent s' = Some n' ∧ val n' = val n ∧ cset n' = cset n ∧ ref n' = ref n ∧ del n' = del n ∧ ldel n' = ldel n ∧ evs n' ⊆ evs n ∪ E
    | None => ent s' = None
    end → inv s'.
  Proof.
    intros I Hp Lp Lq Hk Ht HE Eo Em Eb En Hf H1 H2 H3 H4 H5 Hn.
    destruct (base_in s s' t p q E) as (B' & Gr & Hpub); try done. split; [done|]. destruct I as [B I].
    sums t (Some q) (thr s) Hp. assert (knows s' t = E) as Hkt by (rewrite (knows_upd _ _ _ _ Hk); by rewrite decide_True).
    destruct (ent s) as [n|] eqn:Een.
    - destruct Hn as (n' & -> & E1 & E2 & E3 & E4 & E5 & E6). eapply (entry_in s s' n n' t p q); try done; rewrite ?Ht, ?E2, ?E3, ?E4, ?E5, ?Hkt; try done.
      + rewrite (n_ref _ _ I). simpl. lia.
      + rewrite (n_del _ _ I). simpl. lia.
      + by left.
    - rewrite Hn, Eb, Ht. destruct I as [I1 I2]. split; [done|]. destruct H5 as [H5|[? ?]]; [|done]. specialize (H4 H5 eq_refl). lia.
  Qed.
  Lemma unlock_false_inv s t : inv s → thr s !! t = Some (Unlock false) →
    match release t s with Next s' => inv s' | Stuck => True | Bad => False end.
  Proof.
    intros I Hp. unfold release. simpl. set (s' := State _ _ _ _ _ _ _ _ _). pose proof (proj1 I) as B. pose proof (own_of _ _ _ B Hp eq_refl) as Ho.
    eapply (inv_pure s s' t None); try done; rewrite ?Hp; try done.
    - eapply (grows_intro s s' t None (knows s t)); try done.
      + intros u. by case_decide; [subst|].
      + rewrite (public_own s t) by done. unfold public. simpl. set_solver.
    - intros u. split; [done|]. intros (r & Hr & Lr). simpl in Hr. apply lookup_delete_Some in Hr as [Hne Hr].
      by rewrite (own_only _ _ _ _ _ B Hp eq_refl Hr Lr) in Hne.
  Qed.

  Definition ok (r : res) : Prop := match r with Next s => inv s | Stuck => True | Bad => False end.

  Lemma unlock_true_inv s t : inv s → thr s !! t = Some (Unlock true) → ok (release t (add_obj (knows s t) s)).
  Proof.
    intros I Hp. unfold release. simpl. set (s' := State _ _ _ _ _ _ _ _ _). destruct (used_entry _ _ _ I Hp eq_refl) as [n En].
    pose proof (val_ok _ _ _ _ I En Hp eq_refl) as Hv. destruct I as [B I]. rewrite En in I. pose proof (own_of _ _ _ B Hp eq_refl) as Ho.
    pose proof (b_nob _ B (nob s) (le_n _)) as Hnew.
    assert (grows s s' t None) as Gr.
    { eapply (grows_intro s s' t None (knows s t)); try done.
      - intros u. by case_decide; [subst|].
      - rewrite (public_own s t) by done. unfold public. simpl. change (knows (go t None (add_obj (knows s t) s)) t) with (knows s t). set_solver. }
    assert (∀ x v, objs s !! x = Some v → objs s' !! x = Some v) as Hob.
    { intros x v Hx. simpl. rewrite lookup_insert_ne; [done|]. intros <-. congruence. }
    sums t (@None pc) (thr s) Hp. simpl. split; simpl.
    - eapply (base_step s s' t None); try done.
      + intros u. split; [done|]. intros (r & Hr & Lr). simpl in Hr. apply lookup_delete_Some in Hr as [Hne Hr].
        by rewrite (own_only _ _ _ _ _ B Hp eq_refl Hr Lr) in Hne.
      + by left.
      + intros u r x _ _ _ [v Hx]. eauto.
      + intros x Hx. simpl in *. rewrite lookup_insert_ne by lia. apply B. lia.
    - rewrite En. eapply (entry_step s s' n n t None); try done.
      + simpl. rewrite msum_new by done. rewrite (n_ref _ _ I). change (one (knows s t, (∅ : gset nat))) with 1. lia.
      + simpl. rewrite (n_del _ _ I). lia.
      + by left.
      + intros x w r Hx. simpl in Hx. apply lookup_insert_Some in Hx as [[<- [= <- <-]]|[_ Hx]]; [done|]. by eapply (n_obj _ _ I).
      + intros x w r Hx. left. exists w, r. split; [by apply Hob|done].
      + intros _ _ e He. right; left. unfold public. simpl. change (e ∈ mset s ∪ knows s t). by apply elem_of_union_r.
      + set_solver.
      + intros Hz. destruct (n_zero _ _ I Hz) as [Hz'|(u & r & Hu & Hr & Hc)]; [left; etrans; [done|apply Gr]|].
        right. exists u, r. split; [|by split; [|etrans; [done|by eapply grows_knows]]]. simpl. rewrite lookup_delete_ne; [done|]. intros <-. rewrite Hp in Hu. by simplify_eq.
  Qed.
  Lemma look_inv s t p : inv s → thr s !! t = Some p → p = OFac →
    ok (match fac_access t s with
        | Some s => match look t s with Some s => Next (go t (Some (Unlock false)) s) | None => Bad end
        | None => Bad
        end).
  Proof.
    intros I Hp ->. unfold fac_access. rewrite (fac_ok _ _ _ I Hp eq_refl). unfold look, access. simpl.
    destruct (ent s) as [n|] eqn:En.
    - rewrite bool_decide_true.
      2:{ rewrite (knows_upd _ s t (knows s t ∪ {[nxt s]})), decide_True by done. apply elem_of_union_l. by eapply val_ok. }
      eapply (inv_in s _ t OFac (Unlock false) (knows s t ∪ {[nxt s]} ∪ {[S (nxt s)]})); try done; simpl.
      + unfold event. simpl. unfold knows at 1. simpl. rewrite lookup_insert. simpl. rewrite insert_insert. reflexivity.
      + set_solver.
      + right. exists (nxt s). split; [done|]. set_solver.
      + by left.
      + rewrite En. eexists. split; [done|]. simpl. split_and!; try done. set_solver.
    - eapply (inv_in s _ t OFac (Unlock false) (knows s t ∪ {[nxt s]})); try done; simpl.
      + set_solver.
      + right. exists (nxt s). split; [done|]. set_solver.
      + by left.
      + by rewrite En.
  Qed.
  Lemma fail_inv s t : inv s → thr s !! t = Some CIns →
    ok (match fac_access t s with Some s => Next (go t (Some (Unlock false)) s) | None => Bad end).
  Proof.
    intros I Hp. unfold fac_access. rewrite (fac_ok _ _ _ I Hp eq_refl). simpl.
    eapply (inv_in s _ t CIns (Unlock false) (knows s t ∪ {[nxt s]})); try done; simpl.
    - set_solver.
    - right. exists (nxt s). split; [done|]. set_solver.
    - by left.
    - destruct (ent s) as [n|]; [|done]. exists n. split_and!; try done. set_solver.
  Qed.
  Lemma ins_inv s t : inv s → thr s !! t = Some CIns →
    ok (match fac_access t s with
        | Some s => match insert_entry t s with Some s => Next (go t (Some CRef) s) | None => Bad end
        | None => Bad
        end).
  Proof.
    intros I Hp. unfold fac_access. rewrite (fac_ok _ _ _ I Hp eq_refl). unfold insert_entry, look, access. simpl.
    destruct (ent s) as [n|] eqn:En.
    - rewrite bool_decide_true.
      2:{ rewrite (knows_upd _ s t (knows s t ∪ {[nxt s]})), decide_True by done. apply elem_of_union_l. by eapply val_ok. }
      eapply (inv_in s _ t CIns CRef (knows s t ∪ {[nxt s]} ∪ {[S (nxt s)]})); try done; simpl.
      + unfold event. simpl. unfold knows at 1. simpl. rewrite lookup_insert. simpl. rewrite insert_insert. reflexivity.
      + set_solver.
      + right. exists (nxt s). split; [done|]. set_solver.
      + congruence.
      + by left.
      + rewrite En. eexists. split; [done|]. simpl. split_and!; try done. set_solver.
    - simpl. set (s' := go _ _ _). pose proof I as [B [I1 I2]%(λ x, eq_ind (ent s) (λ o, match o with Some n => _ | None => _ end) x _ En)].
      destruct (base_in s s' t CIns CRef (knows s t ∪ {[nxt s]} ∪ {[S (nxt s)]})) as (B' & Gr & Hpub); try done.
      + unfold s', event. simpl. unfold knows at 1. simpl. rewrite lookup_insert. simpl. by rewrite insert_insert.
      + set_solver.
      + right. exists (nxt s). split; [done|]. set_solver.
      + split; [done|]. simpl. sums t (Some CRef) (thr s) Hp. simpl in *.
        assert (∀ u p, <[t:=CRef]> (thr s) !! u = Some p → h_use p = 1 → u = t) as Huse.
        { intros u p Hu Hp1. destruct (decide (u = t)) as [|Hut]; [done|]. rewrite lookup_insert_ne in Hu by done.
          pose proof (proj1 (msum_zero _ _) I2 u p Hu). lia. }
        assert (∀ f : pc → nat, (∀ p, f p = 0 ∨ h_use p = 1) → f CRef = 0 → msum f (<[t:=CRef]> (thr s)) = 0) as Hsum.
        { intros f Hf Hc. apply msum_zero. intros u p Hu. destruct (Hf p) as [|Hp1]; [done|]. pose proof (Huse u p Hu Hp1) as ->.
          rewrite lookup_insert in Hu. congruence. }
        split; simpl; rewrite ?I1, ?Hpub.
        * rewrite Hsum by (done || by intros []; simpl; auto; destruct b; auto). by rewrite msum_empty.
        * rewrite !Hsum by (done || by intros []; simpl; auto; destruct b; auto). done.
        * set_solver.
        * done.
        * done.
        * intros u p Hu Hc. rewrite (Huse u p Hu) in Hu by (by destruct p). rewrite lookup_insert in Hu. by simplify_eq.
        * intros e He. right; left. set_solver.
        * intros _. left. set_solver.
  Qed.

  Lemma knows_event_same t s : knows (event t s) t = knows s t ∪ {[nxt s]}.
  Proof. by rewrite knows_event, decide_True. Qed.
  Lemma event_insert t s E : <[t:=E]> (kn (event t s)) = <[t:=E]> (kn s).
  Proof. simpl. apply insert_insert. Qed.
  Lemma incr_spec t s n : ent s = Some n → val n ∈ knows s t → ∃ E C,
    incr inc_sync t s = Some ((ref n + 1)%Z, State (own s) (mset s) (Some (Entry (val n) (evs n ∪ {[nxt s]}) (ref n + 1) C (del n) (ldel n)))
      (lfac s) (objs s) (nob s) (<[t:=E]> (kn s)) (thr s) (S (nxt s))) ∧ knows s t ∪ {[nxt s]} ⊆ E ∧ cset n ⊆ C.
  Proof.
    intros En Hv. unfold incr, access. rewrite En, bool_decide_true by done. destruct inc_sync; simpl.
    - eexists (knows s t ∪ {[nxt s]} ∪ cset n), _. split; [|split; [set_solver|]].
      + unfold learn, set_ent. simpl. rewrite knows_event_same, insert_insert. reflexivity.
      + set_solver.
    - exists (knows s t ∪ {[nxt s]}), (cset n). split; [done|]. set_solver.
  Qed.
  Lemma decr_spec t s n : ent s = Some n → val n ∈ knows s t → ∃ E C,
    decr true true t s = Some ((ref n - 1)%Z, State (own s) (mset s) (Some (Entry (val n) (evs n ∪ {[nxt s]}) (ref n - 1) C (del n) (ldel n)))
      (lfac s) (objs s) (nob s) (<[t:=E]> (kn s)) (thr s) (S (nxt s))) ∧ knows s t ∪ {[nxt s]} ⊆ E ∧ cset n ⊆ C ∧ E ⊆ C ∧ C ⊆ E.
  Proof.
    intros En Hv. unfold decr, access. rewrite En, bool_decide_true by done. simpl.
    exists (knows s t ∪ {[nxt s]} ∪ cset n), (cset n ∪ (knows s t ∪ {[nxt s]} ∪ cset n)). split; [|set_solver].
    rewrite knows_learn, decide_True by done. unfold learn, set_ent. simpl. rewrite knows_event_same, insert_insert. reflexivity.
  Qed.
  Lemma cref_inv s t : inv s → thr s !! t = Some CRef →
    ok (match incr inc_sync t s with
        | Some (r, s) => Next (go t (Some (if (r =? 1)%Z then CDel else Unlock true)) s)
        | None => Bad
        end).
  Proof.
    intros I Hp. destruct (used_entry _ _ _ I Hp eq_refl) as [n En]. pose proof (val_ok _ _ _ _ I En Hp eq_refl) as Hv.
    destruct (incr_spec t s n En Hv) as (E & C & -> & HE & HC). set (q := if (ref n + 1 =? 1)%Z then CDel else Unlock true).
    simpl. set (s' := go _ _ _). destruct (base_in s s' t CRef q E) as (B' & Gr & Hpub); try done.
    { unfold q. by destruct (_ =? _)%Z. } { set_solver. } { by left. }
    split; [done|]. simpl. destruct I as [B I]. rewrite En in I.
    assert (knows s' t = E) as Hkt by (rewrite (knows_upd s' s t E) by done; by rewrite decide_True).
    sums t (Some q) (thr s) Hp. pose proof (n_ref _ _ I) as Hr. pose proof (n_del _ _ I) as Hd. simpl.
    eapply (entry_in s s' n _ t CRef q); try done; simpl; rewrite ?Hkt.
    - done.
    - unfold q. by destruct (_ =? _)%Z.
    - lia.
    - assert (h_ref q = 1) by (unfold q; by destruct (_ =? _)%Z). lia.
    - rewrite bool_decide_true by lia. rewrite Hd. unfold q in *. destruct (Z.eqb_spec (ref n + 1) 1); case_bool_decide; simpl in *; lia.
    - by left.
    - set_solver.
  Qed.
  Lemma add_del_spec t s p n d : inv s → ent s = Some n → thr s !! t = Some p → locked p = true →
    add_del t d s = Some ((del n + d)%Z, State (own s) (mset s) (Some (Entry (val n) (evs n ∪ {[nxt s]}) (ref n) (cset n) (del n + d) (Some (nxt s))))
      (lfac s) (objs s) (nob s) (<[t:=knows s t ∪ {[nxt s]}]> (kn s)) (thr s) (S (nxt s))).
  Proof.
    intros I En Hp Lp. unfold add_del, access. rewrite En, bool_decide_true by (eapply val_ok; [done|done|done|by rewrite Lp]). simpl.
    destruct I as [B I]. rewrite En in I. unfold known. destruct (ldel n) as [e|] eqn:El; [|done].
    rewrite bool_decide_true; [done|]. rewrite <- (public_own s t); [by apply I|by eapply own_of].
  Qed.
  Lemma cdel_inv s t : inv s → thr s !! t = Some CDel →
    ok (match add_del t 1 s with Some (_, s) => Next (go t (Some (Unlock true)) s) | None => Bad end).
  Proof.
    intros I Hp. destruct (used_entry _ _ _ I Hp eq_refl) as [n En]. rewrite (add_del_spec t s CDel n) by done. simpl. set (s' := go _ _ _).
    destruct (base_in s s' t CDel (Unlock true) (knows s t ∪ {[nxt s]})) as (B' & Gr & Hpub); try done. { set_solver. } { by left. }
    split; [done|]. simpl. destruct I as [B I]. rewrite En in I.
    assert (knows s' t = knows s t ∪ {[nxt s]}) as Hkt by (rewrite (knows_upd s' s t (knows s t ∪ {[nxt s]})) by done; by rewrite decide_True).
    sums t (Some (Unlock true)) (thr s) Hp. pose proof (n_ref _ _ I) as Hr. pose proof (n_del _ _ I) as Hd.
    eapply (entry_in s s' n _ t CDel (Unlock true)); try done; simpl; rewrite ?Hkt.
    - done.
    - lia.
    - lia.
    - right. exists (nxt s). split; [done|]. rewrite Hpub. set_solver.
    - set_solver.
  Qed.
  Lemma last_ddel s t n : inv s → thr s !! t = Some DDel → ent s = Some n → del n = 1%Z →
    objs s = ∅ ∧ (∀ u q, thr s !! u = Some q → h_use q = 1 → u = t) ∧ evs n ⊆ knows s t.
  Proof.
    intros I Hp En Hz. pose proof I as I0. destruct I0 as [B In]. rewrite En in In.
    pose proof (own_of _ _ _ B Hp eq_refl) as Ho. pose proof (n_ref _ _ In) as Hr. pose proof (n_del _ _ In) as Hd. sums t (Some (Unlock false)) (thr s) Hp.
    assert (msum h_new (thr s) = 0) as H0.
    { apply msum_zero. intros u q Hu. destruct q as [| | | |b| | | | | | |]; try done. exfalso.
      pose proof (own_only _ _ _ _ _ B Hp eq_refl Hu eq_refl) as ->. congruence. }
    assert (ref n = 0)%Z as Hr0 by (case_bool_decide; lia).
    assert (msum h_pend (thr s) = 1) as Hp1 by (rewrite bool_decide_false in Hd; lia).
    assert (objs s = ∅) as Hob.
    { apply map_eq. intros x. rewrite lookup_empty. destruct (objs s !! x) as [v|] eqn:E; [|done]. pose proof (msum_ge one (objs s) x v E) as Hge.
      change (one v) with 1 in Hge. lia. }
    assert (∀ u q, thr s !! u = Some q → h_use q = 1 → u = t) as Honly.
    { intros u q Hu Hq. destruct (decide (u = t)) as [|Hut]; [done|]. exfalso. destruct (locked q) eqn:Lq; [by apply Hut; eapply (own_only _ _ _ _ _ B Hp)|].
      destruct q as [| | | |b|x|x| | | | |]; try done.
      - destruct (b_use _ B u _ x Hu) as [v Hv]; [by apply bool_decide_eq_true|]. by rewrite Hob in Hv.
      - destruct (b_use _ B u _ x Hu) as [v Hv]; [by apply bool_decide_eq_true|]. by rewrite Hob in Hv.
      - pose proof (msum_ge h_ref (thr s) u _ Hu) as Hge. simpl in Hge. lia.
      - assert (msum h_pend (<[t:=Unlock false]> (thr s)) = 0) as Hpz by (simpl in M2; lia).
        pose proof (proj1 (msum_zero _ _) Hpz u DLock). rewrite lookup_insert_ne in H by done. by specialize (H Hu). }
    assert (evs n ⊆ knows s t) as Hevs.
    { intros e He. rewrite <- (public_own s t) by done.
      assert (cset n ⊆ public s) as Hc.
      { destruct (n_zero _ _ In Hr0) as [|(u & q & Hu & Hq & Hc)]; [done|]. assert (u = t) as -> by (eapply Honly; [done|by destruct q]).
        by rewrite (public_own s t). }
      destruct (n_evs _ _ In e He) as [?|[?|[(x & w & r & Hx & _)|(u & q & Hu & Hq & _)]]]; [by apply Hc|done| |].
      - by rewrite Hob in Hx.
      - pose proof (Honly u q Hu) as Hu'. rewrite Hu' in Hu by (by destruct q). rewrite Hp in Hu. by simplify_eq. }
    done.
  Qed.
  Lemma ddel_inv s t : inv s → thr s !! t = Some DDel →
    ok (match add_del t (-1) s with
        | Some (d, s) =>
            if (d =? 0)%Z
            then match fac_access t s with
                 | Some s => match destroy t s with Some s => Next (go t (Some (Unlock false)) s) | None => Bad end
                 | None => Bad
                 end
            else Next (go t (Some (Unlock false)) s)
        | None => Bad
        end).
  Proof.
    intros I Hp. destruct (used_entry _ _ _ I Hp eq_refl) as [n En]. rewrite (add_del_spec t s DDel n) by done.
    pose proof (fac_ok _ _ _ I Hp eq_refl) as Hfac. pose proof I as I0. destruct I0 as [B In]. rewrite En in In.
    pose proof (own_of _ _ _ B Hp eq_refl) as Ho. pose proof (n_ref _ _ In) as Hr. pose proof (n_del _ _ In) as Hd. sums t (Some (Unlock false)) (thr s) Hp.
    destruct (Z.eqb_spec (del n + -1) 0) as [Hz|Hz].
    - destruct (last_ddel s t n I Hp En) as (Hob & Honly & Hevs); [lia|].
      unfold fac_access. simpl. assert (∀ e, known e (knows s t) = true → known e (knows s t ∪ {[nxt s]}) = true) as Hmono.
      { intros [e|]; [|done]. unfold known. rewrite !bool_decide_eq_true. set_solver. }
      rewrite (knows_upd _ s t (knows s t ∪ {[nxt s]})), decide_True by done. rewrite Hmono by done.
      unfold destroy. simpl. rewrite bool_decide_true.
      2:{ unfold knows at 1. simpl. rewrite lookup_insert. simpl. set_solver. }
      simpl. set (s' := go _ _ _). destruct (base_in s s' t DDel (Unlock false) (knows s t ∪ {[nxt s]} ∪ {[S (nxt s)]})) as (B' & Gr & Hpub); try done.
      { unfold s'. simpl. by rewrite insert_insert. }
      { set_solver. } { right. exists (S (nxt s)). split; [done|]. set_solver. }
      split; [done|]. simpl. split; [done|]. apply msum_zero. intros u q Hu. destruct (decide (u = t)) as [->|Hut].
      + rewrite lookup_insert in Hu. by simplify_eq.
      + rewrite lookup_insert_ne in Hu by done. destruct (h_use q) as [|k] eqn:E; [done|]. exfalso. apply Hut. eapply Honly; [done|]. destruct q as [| | | |[]| | | | | | |]; simpl in *; lia.
    - simpl. set (s' := go _ _ _). destruct (base_in s s' t DDel (Unlock false) (knows s t ∪ {[nxt s]})) as (B' & Gr & Hpub); try done.
      { set_solver. } { by left. }
      split; [done|]. simpl.
      assert (knows s' t = knows s t ∪ {[nxt s]}) as Hkt by (rewrite (knows_upd s' s t (knows s t ∪ {[nxt s]})) by done; by rewrite decide_True).
      eapply (entry_in s s' n _ t DDel (Unlock false)); try done; simpl; rewrite ?Hkt.
      + done.
      + simpl in *. lia.
      + simpl in *. lia.
      + right. exists (nxt s). split; [done|]. rewrite Hpub. set_solver.
      + set_solver.
  Qed.

  (** a step of a thread that does not hold the mutex *)
  Lemma base_out s s' t q E : inv s → match thr s !! t with Some p => locked p | None => false end = false →
    match q with Some q => locked q | None => false end = false → kn s' = <[t:=E]> (kn s) →
    thr s' = move t q (thr s) → knows s t ⊆ E → own s' = own s → mset s' = mset s → lfac s' = lfac s →
    (∀ u p x, thr s !! u = Some p → u ≠ t → uses x p = true → is_Some (objs s !! x) → is_Some (objs s' !! x)) →
    (∀ p x, q = Some p → uses x p = true → is_Some (objs s' !! x)) →
    (∀ x, nob s' ≤ x → objs s' !! x = None) → base s' ∧ grows s s' t q ∧ knows s' t = E.
  Proof.
    intros [B _] Lp Lq Hk Ht HE Eo Em Ef Hu Hq Hn. pose proof (knows_upd _ _ _ _ Hk) as Hk'.
    assert (grows s s' t q) as Gr.
    { eapply grows_intro; [done|done|done|]. apply public_same; [done|by rewrite Em|]. intros u. rewrite Hk'. by case_decide; [subst|]. }
    split; [|split; [done|by rewrite Hk', decide_True]]. eapply base_step; try done.
    - eapply (own_same s s' t (thr s !! t) q); try done. by rewrite Lp, Lq.
    - intros u Hou. rewrite Em. rewrite Eo in Hou. etrans; [by apply B|]. by eapply grows_knows.
    - by left.
  Qed.
  Lemma used_lookup x E s y : objs (used x E s) !! y = if decide (y = x) then (λ v, (v.1, v.2 ∪ E)) <$> objs s !! x else objs s !! y.
  Proof.
    unfold used. destruct (objs s !! x) as [[w r]|] eqn:Ex; simpl; case_decide as Hy; subst; rewrite ?lookup_insert, ?lookup_insert_ne by done; done.
  Qed.
  Lemma used_eq x E s w r : objs s !! x = Some (w, r) → used x E s = set_objs (<[x:=(w, r ∪ E)]> (objs s)) s.
  Proof. unfold used. by intros ->. Qed.
  Lemma zero_out s s' t q n : grows s s' t q → entry_ok s n → onO h_pend (thr s !! t) = 0 → ref n = 0%Z →
    cset n ⊆ public s' ∨ ∃ u p, thr s' !! u = Some p ∧ h_pend p = 1 ∧ cset n ⊆ knows s' u.
  Proof.
    intros Gr I Hp Hz. destruct (n_zero _ _ I Hz) as [Hz1|(u & r & Hu & Hr1 & Hc)]; [left; etrans; [done|apply Gr]|].
    right. exists u, r. rewrite (g_thr _ _ _ _ Gr), move_lookup, decide_False.
    - split; [done|]. split; [done|]. etrans; [done|]. by eapply grows_knows.
    - intros ->. rewrite Hu in Hp. simpl in Hp. lia.
  Qed.
  Lemma gget_inv s t x : inv s → thr s !! t = Some (GGet x) →
    ok (match access t s with Some (n, s) => Next (go t None (used x (knows s t) (set_ent (Some n) s))) | None => Bad end).
  Proof.
    intros I Hp. destruct (used_entry _ _ _ I Hp eq_refl) as [n En]. pose proof (val_ok _ _ _ _ I En Hp eq_refl) as Hv.
    unfold access. rewrite En, bool_decide_true by done. rewrite knows_event_same.
    destruct (b_use _ (proj1 I) t _ x Hp) as [[w r] Hx]; [by apply bool_decide_eq_true|].
    rewrite (used_eq _ _ _ w r) by done. unfold ok. set (s' := go _ _ _).
    destruct (base_out s s' t None (knows s t ∪ {[nxt s]})) as (B' & Gr & Hkt); try done.
    { by rewrite Hp. } { set_solver. }
    { intros u p y _ _ _ Hy. simpl. destruct (decide (x = y)) as [->|]; [rewrite lookup_insert; eauto|by rewrite lookup_insert_ne]. }
    { intros y Hy. simpl in *. rewrite lookup_insert_ne; [by apply I|]. intros <-. rewrite (b_nob _ (proj1 I)) in Hx by done. done. }
    split; [done|]. destruct I as [B I]. rewrite En in I. sums t (@None pc) (thr s) Hp. simpl ent. cbv iota beta.
    eapply (entry_step s s' n _ t None); try done; simpl.
    - pose proof (msum_upd one (objs s) x (w, r) (w, r ∪ (knows s t ∪ {[nxt s]})) Hx) as M. change (one (w, r)) with 1 in M.
      change (one (w, r ∪ (knows s t ∪ {[nxt s]}))) with 1 in M. rewrite (n_ref _ _ I). lia.
    - rewrite (n_del _ _ I). lia.
    - by left.
    - intros y w' r' Hy. apply lookup_insert_Some in Hy as [[<- [= <- <-]]|[_ Hy]]; by eapply (n_obj _ _ I).
    - intros y w' r' Hy. left. destruct (decide (x = y)) as [->|Hxy].
      + rewrite Hx in Hy. simplify_eq. rewrite lookup_insert. eexists _, _. split; [done|]. set_solver.
      + rewrite lookup_insert_ne by done. eauto.
    - intros _ _ e He. right; right. exists x, w, (r ∪ (knows s t ∪ {[nxt s]})). simpl. rewrite lookup_insert. split; [done|]. rewrite Hkt in He. set_solver.
    - rewrite Hkt. set_solver.
    - intros Hz. eapply zero_out; [done|done| |done]. by rewrite Hp.
  Qed.
  Lemma kref_inv s t x : inv s → thr s !! t = Some (KRef x) →
    ok (match incr inc_sync t s with Some (_, s) => Next (go t None (used x (knows s t) (add_obj (knows s t) s))) | None => Bad end).
  Proof.
    intros I Hp. destruct (used_entry _ _ _ I Hp eq_refl) as [n En]. pose proof (val_ok _ _ _ _ I En Hp eq_refl) as Hv.
    destruct (incr_spec t s n En Hv) as (E & C & -> & HE & HC).
    destruct (b_use _ (proj1 I) t _ x Hp) as [[w r] Hx]; [by apply bool_decide_eq_true|].
    rewrite (knows_upd _ s t E), decide_True by done. pose proof (b_nob _ (proj1 I) (nob s) (le_n _)) as Hnew.
    assert (x ≠ nob s) as Hxn by congruence.
    rewrite (used_eq _ _ _ w r) by (simpl; by rewrite lookup_insert_ne). unfold ok. set (s' := go _ _ _).
    assert (∀ y, y ≠ x → y ≠ nob s → objs s' !! y = objs s !! y) as Hoth.
    { intros y H1 H2. simpl. by rewrite !lookup_insert_ne. }
    assert (objs s' !! x = Some (w, r ∪ E)) as Hx' by (simpl; by rewrite lookup_insert).
    assert (objs s' !! nob s = Some (E, ∅)) as Hn' by (simpl; by rewrite lookup_insert_ne, lookup_insert).
    destruct (base_out s s' t None E) as (B' & Gr & Hkt); try done.
    { by rewrite Hp. } { set_solver. }
    { intros u p y _ _ _ Hy. destruct (decide (y = x)) as [->|]; [eauto|]. destruct (decide (y = nob s)) as [->|]; [eauto|]. by rewrite Hoth. }
    { intros y Hy. simpl in Hy. rewrite Hoth; [apply I; lia| |lia]. intros ->. rewrite (b_nob _ (proj1 I)) in Hx by lia. done. }
    split; [done|]. destruct I as [B I]. rewrite En in I. sums t (@None pc) (thr s) Hp. simpl ent. cbv iota beta.
    pose proof (msum_ge one (objs s) x (w, r) Hx) as Hpos. change (one (w, r)) with 1 in Hpos. pose proof (n_ref _ _ I) as Hr.
    eapply (entry_step s s' n _ t None); try done; simpl.
    - assert (<[nob s:=(E, ∅)]> (objs s) !! x = Some (w, r)) as Hx2 by (by rewrite lookup_insert_ne by congruence).
      pose proof (msum_upd one _ x (w, r) (w, r ∪ E) Hx2) as M. rewrite (msum_new one (objs s) (nob s)) in M by done.
      change (one (w, r)) with 1 in M. change (one (E, (∅ : gset nat))) with 1 in M. change (one (w, r ∪ E)) with 1 in M. lia.
    - rewrite (n_del _ _ I), !bool_decide_true by lia. lia.
    - by left.
    - intros y w' r' Hy. apply lookup_insert_Some in Hy as [[<- [= <- <-]]|[_ Hy]]; [by eapply (n_obj _ _ I)|].
      apply lookup_insert_Some in Hy as [[<- [= <- <-]]|[_ Hy]]; [set_solver|by eapply (n_obj _ _ I)].
    - intros y w' r' Hy. left. destruct (decide (y = x)) as [->|Hxy].
      + rewrite Hx in Hy. simplify_eq. rewrite lookup_insert. eexists _, _. split; [done|]. set_solver.
      + assert (y ≠ nob s) by congruence. rewrite !lookup_insert_ne by done. eauto.
    - intros _ _ e He. right; right. exists (nob s), E, ∅. split; [done|]. left. by rewrite <- Hkt.
    - rewrite Hkt. set_solver.
    - lia.
  Qed.
  Lemma dref_inv s t : inv s → thr s !! t = Some DRef →
    ok (match decr true true t s with Some (r, s) => Next (go t (if (r =? 0)%Z then Some DLock else None) s) | None => Bad end).
  Proof.
    intros I Hp. destruct (used_entry _ _ _ I Hp eq_refl) as [n En]. pose proof (val_ok _ _ _ _ I En Hp eq_refl) as Hv.
    destruct (decr_spec t s n En Hv) as (E & C & -> & HE & HC & HEC & HCE).
    unfold ok. set (q := if (ref n - 1 =? 0)%Z then Some DLock else None). set (s' := go _ _ _).
    destruct (base_out s s' t q E) as (B' & Gr & Hkt); try done.
    { by rewrite Hp. } { unfold q. by destruct (_ =? _)%Z. } { set_solver. }
    { intros p x Hq Hx. unfold q in Hq. destruct (_ =? _)%Z; by simplify_eq. }
    { apply I. }
    split; [done|]. destruct I as [B I]. rewrite En in I. sums t q (thr s) Hp. simpl ent. cbv iota beta.
    pose proof (n_ref _ _ I) as Hr. pose proof (n_del _ _ I) as Hd. pose proof (msum_ge h_ref (thr s) t DRef Hp) as Hge. simpl in Hge.
    assert (thr s' = move t q (thr s)) as Et by apply Gr.
    eapply (entry_step s s' n _ t q); try done; rewrite ?Et.
    - simpl. assert (onO h_ref q = 0) by (unfold q; by destruct (_ =? _)%Z). lia.
    - simpl. rewrite Hd. rewrite (bool_decide_true (0 < ref n)%Z) by lia. unfold q in *.
      destruct (Z.eqb_spec (ref n - 1) 0); simpl in *; [rewrite bool_decide_false by lia|rewrite bool_decide_true by lia]; lia.
    - by left.
    - apply I.
    - intros x w r Hx. left. eauto.
    - unfold q. by destruct (_ =? _)%Z.
    - intros _ _ e He. left. simpl. rewrite Hkt in He. by apply HEC.
    - simpl. rewrite Hkt. set_solver.
    - simpl. intros Hz. right. exists t, DLock. rewrite move_lookup, decide_True by done. unfold q. rewrite (proj2 (Z.eqb_eq _ _) Hz).
      rewrite Hkt. done.
  Qed.

  Lemma start_inv s t q : inv s → thr s !! t = None → q = CLock ∨ q = OLock → inv (go t (Some q) s).
  Proof.
    intros I Hp Hq. eapply (inv_pure s _ t (Some q)); try done; rewrite ?Hp; try (by destruct Hq as [-> | ->]).
    - eapply (own_same s _ t None (Some q)); try done; [apply I|by destruct Hq as [-> | ->]].
    - apply I.
    - intros x p [= <-]. by destruct Hq as [-> | ->].
  Qed.
  Lemma use_inv s t x q w r : inv s → thr s !! t = None → objs s !! x = Some (w, r) → q = KRef x ∨ q = GGet x → inv (go t (Some q) (learn t w s)).
  Proof.
    intros I Hp Hx Hq. set (s' := go _ _ _).
    destruct (base_out s s' t (Some q) (knows s t ∪ w)) as (B' & Gr & Hkt); try done.
    { by rewrite Hp. } { by destruct Hq as [-> | ->]. } { set_solver. }
    { intros p y [= <-] Hy. simpl. destruct Hq as [-> | ->]; simpl in Hy; apply bool_decide_eq_true in Hy as ->; eauto. }
    { apply I. }
    split; [done|]. destruct I as [B I]. simpl.
    destruct (ent s) as [n|] eqn:En; [|destruct I as [I _]; by rewrite I in Hx]. sums t (Some q) (thr s) Hp.
    eapply (entry_step s s' n n t (Some q)); try done; simpl.
    - rewrite (n_ref _ _ I). assert (h_ref q = 0) by (by destruct Hq as [-> | ->]). lia.
    - rewrite (n_del _ _ I). assert (h_pend q = 0 ∧ h_new q = 0) by (by destruct Hq as [-> | ->]). lia.
    - by left.
    - apply I.
    - intros y w' r' Hy. left. eauto.
    - intros _. rewrite Hkt. apply elem_of_union_r. by eapply (n_obj _ _ I).
    - by destruct Hq as [-> | ->].
    - set_solver.
    - intros Hz. eapply zero_out; [done|done| |done]. by rewrite Hp.
  Qed.
  Lemma destroy_inv s t x w r : inv s → thr s !! t = None → objs s !! x = Some (w, r) → ¬ map_Exists (λ _ p, uses x p = true) (thr s) →
    inv (go t (Some DRef) (set_objs (delete x (objs s)) (learn t (w ∪ r) s))).
  Proof.
    intros I Hp Hx Hno. set (s' := go _ _ _).
    destruct (base_out s s' t (Some DRef) (knows s t ∪ (w ∪ r))) as (B' & Gr & Hkt); try done.
    { by rewrite Hp. } { set_solver. }
    { intros u p y Hu _ Hy His. simpl. rewrite lookup_delete_ne; [done|]. intros <-. apply Hno. exists u, p. done. }
    { intros p y [= <-] Hy. done. }
    { intros y Hy. simpl. apply lookup_delete_None. right. by apply I. }
    split; [done|]. destruct I as [B I]. simpl.
    destruct (ent s) as [n|] eqn:En; [|destruct I as [I _]; by rewrite I in Hx]. sums t (Some DRef) (thr s) Hp.
    eapply (entry_step s s' n n t (Some DRef)); try done; simpl.
    - rewrite (n_ref _ _ I). pose proof (msum_delete one (objs s) x (w, r) Hx) as M. change (one (w, r)) with 1 in M. lia.
    - rewrite (n_del _ _ I). lia.
    - by left.
    - intros y w' r' Hy. apply lookup_delete_Some in Hy as [_ Hy]. by eapply (n_obj _ _ I).
    - intros y w' r' Hy. destruct (decide (y = x)) as [->|Hyx].
      + rewrite Hx in Hy. simplify_eq. right. split; [|done]. rewrite Hkt. set_solver.
      + left. rewrite lookup_delete_ne by done. eauto.
    - intros _. rewrite Hkt. apply elem_of_union_r, elem_of_union_l. by eapply (n_obj _ _ I).
    - set_solver.
    - intros Hz. eapply zero_out; [done|done| |done]. by rewrite Hp.
  Qed.
  Lemma sync_inv s t E : inv s → inv (learn t E s).
  Proof.
    intros I. assert (thr s = move t (thr s !! t) (thr s)) as Et.
    { apply map_eq. intros u. rewrite move_lookup. by case_decide; [subst|]. }
    assert (grows s (learn t E s) t (thr s !! t)) as Gr.
    { eapply (grows_intro s _ t _ (knows s t ∪ E)); [by apply knows_upd|done|set_solver|].
      apply public_same; [done|done|]. intros u. rewrite knows_learn. case_decide; [subst; set_solver|done]. }
    eapply (inv_pure s _ t (thr s !! t)); try done.
    - apply I.
    - intros u Hu. simpl in *. etrans; [by apply I|]. by eapply grows_knows.
    - intros x p Hp Hx. split; [|eauto]. rewrite Hp. by destruct p.
  Qed.
  Lemma step_inv s l : inv s → ok (step s l).
  Proof.
    intros I. destruct l as [t o|t b|t u]; simpl; [| |by apply sync_inv].
    - unfold begin. destruct (thr s !! t) eqn:Hp; [done|]. destruct o as [|x|x|x|]; simpl.
      + apply start_inv; auto.
      + destruct (objs s !! x) as [[w r]|] eqn:Hx; [|done]. eapply use_inv; eauto.
      + destruct (objs s !! x) as [[w r]|] eqn:Hx; [|done]. eapply use_inv; eauto.
      + destruct (objs s !! x) as [[w r]|] eqn:Hx; [|done]. case_bool_decide; [done|]. by apply destroy_inv.
      + apply start_inv; auto.
    - unfold step_thread. destruct (thr s !! t) as [p|] eqn:Hp; [|done]. destruct p as [| | | |c|x|x| | | | |].
      + by eapply acquire_inv.
      + destruct b; [by apply fail_inv|by apply ins_inv].
      + by apply cref_inv.
      + by apply cdel_inv.
      + destruct c; [by apply unlock_true_inv|by apply unlock_false_inv].
      + by apply kref_inv.
      + by apply gget_inv.
      + by apply dref_inv.
      + by eapply acquire_inv.
      + by apply ddel_inv.
      + by eapply acquire_inv.
      + by eapply look_inv.
  Qed.
  Lemma inv_init : inv init.
  Proof. split; [|done]. split; try done. intros t. split; [done|]. by intros (p & Hp & _). Qed.
  Lemma run_inv s ls : inv s → ok (run s ls).
  Proof.
    revert s. induction ls as [|l ls IH]; intros s I; simpl; [done|]. pose proof (step_inv s l I) as Hs.
    destruct (step s l); [by apply IH|by apply IH|done].
  Qed.
  Lemma reach_inv s : reachable s → inv s.
  Proof. intros [ls H]. pose proof (run_inv init ls inv_init) as I. by rewrite H in I. Qed.
End proofs.

(** C57: with decrements that acquire and release, whatever the increments do,
    no two conflicting accesses are unordered and the entry is destroyed after
    every access to it. *)
Theorem C57_no_race inc_sync ls : run inc_sync true true init ls ≠ Bad.
Proof. intros H. pose proof (run_inv inc_sync init ls inv_init) as I. by rewrite H in I. Qed.

(** whoever destroys the entry comes after everything done with it so far *)
Theorem C57_destroyed_last inc_sync s t b s' n : reachable inc_sync s → step inc_sync true true s (LStep t b) = Next s' →
  ent s = Some n → ent s' = None → ∀ e, e ∈ evs n → e ∈ knows s t.
Proof.
  intros I%reach_inv Hs En En'. simpl in Hs. unfold step_thread in Hs. destruct (thr s !! t) as [p|] eqn:Hp; [|done].
  destruct p as [| | | |c|x|x| | | | |].
  - unfold acquire in Hs. destruct (own s); [done|]. simplify_eq/=; congruence.
  - unfold fac_access in Hs. destruct (known _ _); [|done]. unfold insert_entry, look, access in Hs. simpl in Hs. rewrite En in Hs.
    destruct b; [simplify_eq/=; congruence|]. destruct (bool_decide _); by simplify_eq/=.
  - unfold incr, access in Hs. rewrite En in Hs. destruct (bool_decide _); by simplify_eq/=.
  - unfold add_del, access in Hs. rewrite En in Hs. destruct (bool_decide _); [|done]. simpl in Hs. destruct (known _ _); by simplify_eq/=.
  - unfold release in Hs. destruct c; simplify_eq/=; congruence.
  - unfold incr, access in Hs. rewrite En in Hs. destruct (bool_decide _); [|done]. simplify_eq/=. unfold used in En'. simpl in En'.
    destruct (<[_:=_]> _ !! _) as [[]|] in En'; done.
  - unfold access in Hs. rewrite En in Hs. destruct (bool_decide _); [|done]. simplify_eq/=. unfold used in En'. simpl in En'.
    destruct (objs s !! x) as [[]|]; done.
  - unfold decr, access in Hs. rewrite En in Hs. destruct (bool_decide _); by simplify_eq/=.
  - unfold acquire in Hs. destruct (own s); [done|]. simplify_eq/=; congruence.
  - pose proof (add_del_spec t s DDel n (-1) I En Hp eq_refl) as Hd. rewrite Hd in Hs. destruct (Z.eqb_spec (del n + -1) 0) as [Hz|]; [|by simplify_eq/=].
    destruct (last_ddel s t n I Hp En) as (_ & _ & Hevs); [lia|]. done.
  - unfold acquire in Hs. destruct (own s); [done|]. simplify_eq/=; congruence.
  - unfold fac_access in Hs. destruct (known _ _); [|done]. unfold look, access in Hs. simpl in Hs. rewrite En in Hs.
    destruct (bool_decide _); by simplify_eq/=.
Qed.
(** a thread that reads a value knows its construction; so does whoever copies or destroys a flyweight *)
Theorem C57_constructed_first inc_sync s t p x : reachable inc_sync s → thr s !! t = Some p → p = GGet x ∨ p = KRef x ∨ p = DRef →
  ∃ n, ent s = Some n ∧ val n ∈ knows s t.
Proof.
  intros I%reach_inv Hp Hq. destruct (used_entry _ _ _ I Hp) as [n En]; [by destruct Hq as [->|[->| ->]]|].
  exists n. split; [done|]. eapply val_ok; [done|done|done|]. by destruct Hq as [->|[->| ->]].
Qed.

(** Two threads share a flyweight.  Thread 0 makes it, thread 1 is told, makes
    a copy and reads it; 0 reads; both destroy theirs, 0 last; 0 destroys the
    entry. *)
Definition steps (t k : nat) : list label := replicate k (LStep t false).
Definition shared : list label :=
  [LStart 0 ONew] ++ steps 0 5 ++ [LSync 0 1; LStart 1 (OCopy 0)] ++ steps 1 1 ++ [LStart 1 (OGet 1)] ++ steps 1 1 ++
  [LStart 0 (OGet 0)] ++ steps 0 1 ++ [LStart 1 (ODestroy 1)] ++ steps 1 1 ++ [LStart 0 (ODestroy 0)] ++ steps 0 1.
Definition erase : list label := steps 0 2.
Definition entry_of (r : res) : option (list nat * Z * Z) :=
  match r with Next s => (λ n, (elements (evs n), ref n, del n)) <$> ent s | _ => None end.
Definition known_to (t : nat) (r : res) : list nat := match r with Next s => elements (knows s t) | _ => [] end.
Definition ended (r : res) : bool := match r with Next s => bool_decide (ent s = None) && bool_decide (dom (thr s) = ∅) && bool_decide (objs s = ∅) | _ => false end.
Example C57_shared : let r := run false true true init shared in
  length (known_to 0 r) = 9 ∧ (λ p, (length p.1.1, p.1.2, p.2)) <$> entry_of r = Some (8, 0%Z, 1%Z) ∧ 
  ended (run false true true init (shared ++ erase ++ steps 0 1)) = true.
Proof. vm_compute. split_and!; reflexivity. Qed.
(** With a decrement that does not release, or does not acquire, what thread 1
    did is not known to happen before. *)
Theorem C57_release_refuted inc_sync : ∃ ls, run inc_sync false true init ls = Bad.
Proof. exists (shared ++ erase). destruct inc_sync; vm_compute; reflexivity. Qed.
Theorem C57_acquire_refuted inc_sync : ∃ ls, run inc_sync true false init ls = Bad.
Proof. exists (shared ++ erase). destruct inc_sync; vm_compute; reflexivity. Qed.

Print Assumptions C57_no_race.
Print Assumptions C57_destroyed_last.
Print Assumptions C57_constructed_first.
Print Assumptions C57_release_refuted.
Print Assumptions C57_acquire_refuted.
