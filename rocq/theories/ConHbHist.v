(** The values of the counters in [ConHb.v], and what is done without a move of
    the machine of [Concurrent.v]. *)
From Verif Require Export ConHbStep.

Section Hist.
  Context {K A R V : Type}.
  Context (P : Core.policy K A R V) (eqv : K → K → bool) (good : R → Prop).
  Context (Heq : equivalence eqv) (HP : policy_ok eqv good P).
  Context (inc_sync dec_acq : bool).

  Notation state := (state (K:=K) (A:=A) (R:=R)).
  Notation instr := (instr (K:=K) (A:=A) (R:=R)).
  Notation node := (node (R:=R)).
  Notation Inv := (Inv P eqv good).
  Notation own := (own P).
  Notation cnt := (cnt P).
  Notation kids n := (p_kids P (n_rep n)).
  Notation cov := (cov P).
  Notation J := (J P).
  Implicit Types (s : state) (c : hb) (d : chb) (n : node) (h b : addr) (i : instr) (L : addr → gset nat) (f : addr → Z).

  (** [z] is the current value of the counter of [h]; a 0 that is not the
      newest value has been replaced by a write that whoever has access knows *)
  Record hok s d h (z : Z) : Prop := {
    ho_top : ∃ e l, hist d h = (e, z, cset (co d) h) :: l;
    ho_cl : ∀ w, w ∈ hist d h → closed (co d) w.2;
    ho_old : ∀ (i : nat) e E, hist d h !! S i = Some (e, 0%Z, E) →
      ∃ j w, j ≤ i ∧ hist d h !! j = Some w ∧ w.1.1 ∈ vis s (co d) (lset d) h;
  }.
  Definition JH s d f : Prop := J s (co d) (lset d) ∧ ∀ h, is_Some (ents s !! h) → hok s d h (f h).

  Lemma hok_keep s s' d d' h z : hok s d h z → hist d' h = hist d h → cset (co d') h = cset (co d) h →
    vis s (co d) (lset d) h ⊆ vis s' (co d') (lset d') h → (∀ e D, past (co d) !! e = Some D → past (co d') !! e = Some D) → hok s' d' h z.
  Proof.
    intros [Ht Hc Ho] Eh Ec Hv Hp. split; rewrite Eh.
    - by rewrite Ec.
    - intros w Hw. eapply closed_past; [done|by apply Hc].
    - intros i e E H. destruct (Ho i e E H) as (j&w&?&?&?). exists j, w. auto.
  Qed.
  Lemma vis_le s c c' L h : (∀ u, knows c u ⊆ knows c' u) → vis s c L h ⊆ vis s c' L h.
  Proof. intros Hk. unfold vis. destruct (ents s !! h) as [n|]; [|done]. destruct (n_own n); [apply Hk|done]. Qed.

  Lemma JH_ext s d f f' : JH s d f → (∀ h, f h = f' h) → JH s d f'.
  Proof. intros [HJ HH] E. split; [done|]. intros h Hh. rewrite <- E. by apply HH. Qed.
  Lemma JH_co s d f g : JH s d f → J s (g (co d)) (lset d) → (∀ h, cset (g (co d)) h = cset (co d) h) →
    (∀ u, knows (co d) u ⊆ knows (g (co d)) u) → (∀ e D, past (co d) !! e = Some D → past (g (co d)) !! e = Some D) → JH s (on_co g d) f.
  Proof. intros [HJ HH] HJ' Hc Hk Hp. split; [done|]. intros h Hh. eapply hok_keep; [by apply HH|done|apply Hc|by apply vis_le|done]. Qed.

  Lemma closed_made c x : hwf c → closed c (made c x).
  Proof. intros W. unfold made. destruct (ob c !! x) as [[w r]|] eqn:E; [by apply (w_ob _ W x w r)|apply closed_empty]. Qed.
  Lemma closed_uses c x : hwf c → closed c (uses c x).
  Proof. intros W. unfold uses. destruct (ob c !! x) as [[w r]|] eqn:E; [|apply closed_empty]. destruct (w_ob _ W x w r E). by apply closed_union. Qed.
  Lemma used_rest t x c : knows (used t x c) = knows c ∧ nd (used t x c) = nd c ∧ past (used t x c) = past c ∧ tr (used t x c) = tr c ∧ nxt (used t x c) = nxt c.
  Proof. unfold used. by destruct (ob c !! x) as [[??]|]. Qed.
  Lemma made_used t x c y : made (used t x c) y = made c y.
  Proof.
    unfold used. destruct (ob c !! x) as [[w r]|] eqn:E; [|done]. unfold made. simpl.
    destruct (decide (y = x)) as [->|Hne]; [by rewrite lookup_insert, E|by rewrite lookup_insert_ne].
  Qed.
  Lemma uses_used t x c y : uses (used t x c) y ⊆ uses c y ∪ knows c t.
  Proof.
    unfold used. destruct (ob c !! x) as [[w r]|] eqn:E; [|set_solver]. unfold uses. simpl.
    destruct (decide (y = x)) as [->|Hne]; [rewrite lookup_insert, E; set_solver|rewrite lookup_insert_ne by done; set_solver].
  Qed.

  Lemma JH_learn s d f t E : Inv s → JH s d f → closed (co d) E → JH s (on_co (learn t E) d) f.
  Proof.
    intros HI HJ HE. eapply JH_co; [done|by apply (J_learn P eqv good Heq HP); [|apply HJ|]|done| |done].
    intros u. rewrite knows_learn. case_decide; subst; set_solver.
  Qed.
  Lemma JH_see s d f t h n k : Inv s → JH s d f → ents s !! h = Some n → n_own n = Some t →
    (k = Read ∨ (k = Write ∧ p_val P (n_rep n) = None)) → JH s (see t h k d) f.
  Proof.
    intros HI HJ Hn Ho Hk. eapply (JH_co s d f (λ c, emit t [(MRep (idn c h), k)] c)); [done|eapply (J_see P eqv good Heq HP); [done|apply HJ|done|done|done]|done| |].
    - intros u. rewrite knows_emit. case_decide; subst; set_solver.
    - intros e D. apply past_emit, HJ.
  Qed.
  (** the collector's load *)
  Lemma JH_load s d f t h n : Inv s → JH s d f → ents s !! h = Some n → n_own n = Some t →
    JH s (on_co (λ c, emit t [(MRef (idn c h), Atomic)] c) d) f.
  Proof.
    intros HI HJH Hn Ho. pose proof HJH as [HJ _]. eapply JH_co; [done| |done| |].
    2:{ intros u. rewrite knows_emit. case_decide; subst; set_solver. }
    2:{ intros e D. apply past_emit, HJ. }
    pose proof (λ c', vis_own s c' (lset d) h n t Hn Ho) as Hv. set (c := co d) in *.
    destruct (proj2 (j_nd _ _ _ _ HJ h)) as [[j E] Hj]; [eauto|]. assert (Hid : idn c h = j) by (unfold idn; by rewrite Hj). rewrite Hid.
    assert (Hnew : nxt c ∈ vis s (emit t [(MRef j, Atomic)] c) (lset d) h) by (rewrite Hv, knows_emit, decide_True by done; set_solver).
    eapply (J_hb P eqv good Heq HP s c _ (lset d) t [Acc (nxt c) t (MRef j) Atomic]); try done.
    - apply emit_wf; [apply HJ|]. intros a l Ha ->%elem_of_list_singleton (Hl&_&Hr). rewrite <- (Hv c). simpl in *.
      eapply (j_wr _ _ _ _ HJ); [done|done|]. right. split; [done|]. intros ?. by apply Hr.
    - intros u Hu. by rewrite knows_emit, decide_False.
    - rewrite knows_emit, decide_True by done. set_solver.
    - intros e D He. apply past_emit; [apply HJ|done].
    - simpl. lia.
    - intros b. simpl. destruct (nd c !! b) as [[??]|]; auto.
    - intros x. simpl. destruct (ob c !! x) as [[??]|]; auto.
    - intros a j0 ->%elem_of_list_singleton Hon. unfold on in Hon. simpl in Hon. exists h, E. naive_solver.
    - intros a b j0 E0 ->%elem_of_list_singleton Hj0 Hon. assert (j0 = j) as -> by (unfold on in Hon; simpl in Hon; naive_solver).
      assert (b = h) as -> by (by eapply (j_inj _ _ _ _ HJ)). split_and!; [|done|by apply cov_v].
      unfold wr. simpl. naive_solver.
  Qed.

  (** entries that can be reached from one *)
  Inductive reach s : addr → addr → Prop :=
  | reach_0 h : reach s h h
  | reach_k h b n h' : reach s h b → ents s !! b = Some n → h' ∈ kids n → reach s h h'.
  Lemma reach_cov s c L h h' : reach s h h' → ∀ e, cov s c L h e → cov s c L h' e.
  Proof. induction 1 as [|h b n h' Hr IH Hb Hk]; [done|]. intros e He. eapply cov_k; [done|done|by apply IH]. Qed.
  Lemma reach_cnt s h h' : reach s h h' → 0 < cnt s h → 0 < cnt s h'.
  Proof. induction 1 as [|h b n h' Hr IH Hb Hk]; [done|]. intros _. by eapply cnt_kid. Qed.
  Lemma reach_kn s c L E h h' : Inv s → J s c L → closed c E → reach s h h' → 0 < cnt s h → knowsW c E h → knowsW c E h'.
  Proof.
    intros HI HJ HE. induction 1 as [|h b n h' Hr IH Hb Hk]; [done|]. intros H0 HW. specialize (IH H0 HW).
    eapply (knowsW_kid P s c L E b n h'); [done|done| |done|done|done]. apply (j_nd _ _ _ _ HJ). by eexists.
  Qed.
  (** through an object whose handle is known *)
  Lemma reach_W s d f t x h h' : Inv s → JH s d f → vars s !! x = Some (Some h) → made (co d) x ⊆ knows (co d) t → reach s h h' →
    knowsW (co d) (knows (co d) t) h'.
  Proof.
    intros HI [HJ _] Hx Hm Hr. eapply (reach_kn s _ (lset d) _ h); [done|done|apply (w_kn _ (j_wf _ _ _ _ HJ))|done|by eapply cnt_var|].
    destruct (proj2 (j_ob _ _ _ _ HJ x)) as [[w r] Hw]; [eauto|]. unfold made in Hm. rewrite Hw in Hm.
    intros j F a Hj Ha Hwr. apply Hm. by eapply (j_obj _ _ _ _ HJ).
  Qed.
  Lemma no_erase s h : Inv s → 0 < cnt s h → ∀ u, IErase h ∉ stack s u.
  Proof. intros HI H0 u Hi. pose proof (i_ok _ _ _ _ HI u _ Hi) as H. simpl in H. lia. Qed.

  Definition plus (h : addr) (z : Z) f : addr → Z := λ b, if decide (b = h) then (f b + z)%Z else f b.
  Lemma hist_rmw acq rls z t h d b : hist (crmw acq rls z t h d) b =
    if decide (b = h) then (nxt (co d), (latest d h + z)%Z, cset (rmw acq rls t h (co d)) h) :: hist d h else hist d b.
  Proof. unfold hist, crmw. simpl. case_decide; [subst; by rewrite lookup_insert|by rewrite lookup_insert_ne]. Qed.
  Lemma latest_top s d h z : hok s d h z → latest d h = z.
  Proof. intros [(e&l&E) _ _]. unfold latest. by rewrite E. Qed.

  Lemma JH_rmw s d f t h acq rls z (o : option var) : Inv s → JH s d f → knowsW (co d) (knows (co d) t) h → is_Some (ents s !! h) → (∀ u, IErase h ∉ stack s u) →
    match o with
    | Some x => ∃ h0, vars s !! x = Some (Some h0) ∧ ∀ c e, cov s c (lset d) h0 e → cov s c (lset d) h e
    | None => (∃ i, i ∈ stack s t ∧ 0 < own h i) ∨ ∀ c, vis s c (lset d) h = knows c t
    end → ((0 < cnt s h ∧ f h ≠ 0%Z) ∨ ∀ c, vis s c (lset d) h = knows c t) →
    JH s (match o with Some x => done_ t x (crmw acq rls z t h d) | None => crmw acq rls z t h d end) (plus h z f).
  Proof.
    intros HI [HJ HH] HW He Her Hby Hor.
    assert (HJ' : J s (match o with Some x => used t x (rmw acq rls t h (co d)) | None => rmw acq rls t h (co d) end) (lset d)).
    { apply (J_rmw P eqv good Heq HP); try done. destruct Hor as [[??]|?]; auto. }
    set (c' := match o with Some x => used t x (rmw acq rls t h (co d)) | None => rmw acq rls t h (co d) end) in *.
    assert (Hn : nd c' = nd (rmw acq rls t h (co d)) ∧ knows c' = knows (rmw acq rls t h (co d)) ∧ past c' = past (rmw acq rls t h (co d))).
    { unfold c'. destruct o as [v|]; [|done]. destruct (used_rest t v (rmw acq rls t h (co d))) as (?&?&?&_). done. }
    destruct Hn as (Hn&Hk&Hp). destruct (proj2 (j_nd _ _ _ _ HJ h) He) as [[j E] Hj].
    assert (Hco : co (match o with Some x => done_ t x (crmw acq rls z t h d) | None => crmw acq rls z t h d end) = c') by (by destruct o).
    assert (Hls : lset (match o with Some x => done_ t x (crmw acq rls z t h d) | None => crmw acq rls z t h d end) = lset d) by (by destruct o).
    assert (Hhi : ∀ b, hist (match o with Some x => done_ t x (crmw acq rls z t h d) | None => crmw acq rls z t h d end) b = hist (crmw acq rls z t h d) b) by (by destruct o).
    set (d' := match o with Some x => done_ t x (crmw acq rls z t h d) | None => crmw acq rls z t h d end) in *.
    split; [by rewrite Hco, Hls|]. intros b Hb. specialize (HH b Hb).
    assert (Hkn : ∀ u, knows (co d) u ⊆ knows c' u) by (intros u; rewrite Hk, knows_rmw; case_decide; subst; set_solver).
    assert (Hpa : ∀ e D, past (co d) !! e = Some D → past c' !! e = Some D).
    { intros e D HD. destruct (rmw_rest acq rls t h (co d)) as (_&_&Rp&_). rewrite Hp, Rp, lookup_insert_ne; [done|]. intros <-.
      apply (w_dom _ (j_wf _ _ _ _ HJ)) in HD. lia. }
    assert (Hcs : ∀ b, b ≠ h → cset c' b = cset (co d) b).
    { intros b' Hne. unfold cset. rewrite Hn, (nd_rmw _ _ _ _ _ _ _ Hj). destruct rls; [by rewrite lookup_insert_ne|done]. }
    unfold plus. case_decide as Hbh.
    - subst b. pose proof (latest_top _ _ _ _ HH) as Hlt. destruct HH as [(e0&l&Et) Hc Ho]. split.
      + exists (nxt (co d)), (hist d h). rewrite Hhi, hist_rmw, decide_True, Hlt, Hco by done. unfold cset. by rewrite Hn.
      + intros w. rewrite Hhi, hist_rmw, decide_True, Hco by done. intros [->|Hw]%elem_of_cons; [|eapply closed_past; [done|by apply Hc]].
        simpl. assert (cset (rmw acq rls t h (co d)) h = cset c' h) as -> by (unfold cset; by rewrite Hn).
        unfold cset. destruct (nd c' !! h) as [[??]|] eqn:E'; [by eapply (w_nd _ (j_wf _ _ _ _ HJ'))|apply closed_empty].
      + intros i e F. rewrite Hhi, hist_rmw, decide_True, Hco, Hls by done. intros Hi. simpl in Hi. destruct i as [|i].
        * assert (f h = 0%Z) as H0 by (rewrite Et in Hi; simpl in Hi; congruence). exists 0. eexists. split_and!; [lia|done|]. simpl.
          destruct Hor as [[_ ?]|Hv]; [done|]. rewrite Hv, Hk, knows_rmw, decide_True by done. set_solver.
        * destruct (Ho i e F Hi) as (j0&w&Hle&Hw&Hin). exists (S j0), w. split_and!; [lia|done|]. eapply vis_le; [apply Hkn|done].
    - eapply hok_keep; [done|by rewrite Hhi, hist_rmw, decide_False|rewrite Hco; by apply Hcs|rewrite Hco, Hls; by apply vis_le|by rewrite Hco].
  Qed.

  (** the uses of an object *)
  Lemma JH_use s d f t x : Inv s → JH s d f → JH s (use t x d) f ∧ made (co (use t x d)) x ⊆ knows (co (use t x d)) t.
  Proof.
    intros HI HJ. split.
    - eapply (JH_co s d f (λ c, learn t (made c x) c)); [done|apply (J_learn P eqv good Heq HP); [done|apply HJ|apply closed_made, HJ]|done| |done].
      intros u. rewrite knows_learn. case_decide; subst; set_solver.
    - simpl. change (made (learn t (made (co d) x) (co d)) x) with (made (co d) x). rewrite knows_learn, decide_True by done. set_solver.
  Qed.
  Lemma JH_all s d f t x : Inv s → JH s d f → JH s (all_uses t x d) f ∧ uses (co (all_uses t x d)) x ⊆ knows (co (all_uses t x d)) t ∧
    ∀ y, uses (co (all_uses t x d)) y = uses (co d) y.
  Proof.
    intros HI HJ. split_and!.
    - eapply (JH_co s d f (λ c, learn t (uses c x) c)); [done|apply (J_learn P eqv good Heq HP); [done|apply HJ|apply closed_uses, HJ]|done| |done].
      intros u. rewrite knows_learn. case_decide; subst; set_solver.
    - simpl. change (uses (learn t (uses (co d) x) (co d)) x) with (uses (co d) x). rewrite knows_learn, decide_True by done. set_solver.
    - done.
  Qed.
  Lemma rmw_ob acq rls z t h d : ob (co (crmw acq rls z t h d)) = ob (co d).
  Proof. by destruct (rmw_rest acq rls t h (co d)) as (_&?&_). Qed.

  (** a counter operation or a read through [x] *)
  Lemma JH_via s d f t x h h' acq rls z : Inv s → JH s d f → vars s !! x = Some (Some h) → made (co d) x ⊆ knows (co d) t → reach s h h' → f h' ≠ 0%Z →
    JH s (done_ t x (crmw acq rls z t h' d)) (plus h' z f) ∧ made (co (done_ t x (crmw acq rls z t h' d))) x ⊆ knows (co (done_ t x (crmw acq rls z t h' d))) t ∧
    (∀ y, uses (co (done_ t x (crmw acq rls z t h' d))) y ⊆ uses (co d) y ∪ knows (co (done_ t x (crmw acq rls z t h' d))) t) ∧
    ∀ u, knows (co d) u ⊆ knows (co (done_ t x (crmw acq rls z t h' d))) u.
  Proof.
    intros HI HJ Hx Hm Hr Hf. assert (Hc : 0 < cnt s h') by (eapply reach_cnt; [done|by eapply cnt_var]).
    assert (Hkn : ∀ u, knows (co d) u ⊆ knows (co (done_ t x (crmw acq rls z t h' d))) u).
    { intros u. simpl. destruct (used_rest t x (rmw acq rls t h' (co d))) as (->&_). rewrite knows_rmw. case_decide; subst; set_solver. }
    split_and!; [| | |done].
    - eapply (JH_rmw s d f t h' acq rls z (Some x)); try done.
      + by eapply reach_W.
      + destruct (present P eqv good s h' HI Hc) as (n&?&_). eauto.
      + by apply no_erase.
      + exists h. split; [done|]. intros c e. by apply reach_cov.
      + by left.
    - etrans; [|apply Hkn]. simpl. rewrite made_used. unfold made. destruct (rmw_rest acq rls t h' (co d)) as (_&->&_). done.
    - intros y. simpl. etrans; [apply uses_used|]. destruct (used_rest t x (rmw acq rls t h' (co d))) as (->&_).
      unfold uses at 1. destruct (rmw_rest acq rls t h' (co d)) as (_&->&_). done.
  Qed.
  Lemma JH_read s d f t x h h' : Inv s → JH s d f → vars s !! x = Some (Some h) → made (co d) x ⊆ knows (co d) t → reach s h h' →
    JH s (done_ t x (see t h' Read d)) f ∧ made (co (done_ t x (see t h' Read d))) x ⊆ knows (co (done_ t x (see t h' Read d))) t.
  Proof.
    intros HI HJ Hx Hm Hr. assert (Hc : 0 < cnt s h') by (eapply reach_cnt; [done|by eapply cnt_var]).
    destruct (used_rest t x (emit t [(MRep (idn (co d) h'), Read)] (co d))) as (Uk&Un&Up&_).
    split.
    - eapply (JH_co s d f (λ c, used t x (emit t [(MRep (idn c h'), Read)] c))); [done| | | |].
      + eapply (J_touch P eqv good Heq HP); [done|apply HJ|done|intros c e; by apply reach_cov|by eapply reach_W|].
        destruct (present P eqv good s h' HI Hc) as (n&?&[? Hv]). exists n. by rewrite Hv.
      + intros b. unfold cset. by rewrite Un.
      + intros u. rewrite Uk, knows_emit. case_decide; subst; set_solver.
      + intros e D. rewrite Up. apply past_emit, HJ.
    - simpl. rewrite made_used, Uk, knows_emit, decide_True by done. change (made (co d) x ⊆ knows (co d) t ∪ {[nxt (co d)]}). set_solver.
  Qed.
  Lemma JH_copy s d f t x h : Inv s → JH s d f → vars s !! x = Some (Some h) → f h ≠ 0%Z →
    let d' := ccopy inc_sync t x h d in
    JH s d' (plus h 1 f) ∧ made (co d') x ⊆ knows (co d') t ∧ (∀ y, uses (co d') y ⊆ uses (co d) y ∪ knows (co d') t) ∧ ∀ u, knows (co d) u ⊆ knows (co d') u.
  Proof.
    intros HI HJ Hx Hf d'. destruct (JH_use s d f t x HI HJ) as [HJ1 Hm].
    destruct (JH_via s _ f t x h h inc_sync inc_sync 1 HI HJ1 Hx Hm (reach_0 s h) Hf) as (?&?&Hu&Hk).
    split_and!; [done|done|done|]. intros u. etrans; [|apply Hk]. simpl. rewrite knows_learn. case_decide; subst; set_solver.
  Qed.

  (** get() along a path *)
  Lemma JH_walk s t x h path : Inv s → vars s !! x = Some (Some h) → ∀ h' d f, JH s d f → made (co d) x ⊆ knows (co d) t → reach s h h' →
    (∀ b, 0 < cnt s b → (0 < f b)%Z) → JH s (cwalk P inc_sync true dec_acq s t x h' path d) f.
  Proof.
    intros HI Hx. induction path as [|j path IH]; intros h' d f HJ Hm Hr Hf.
    - assert (Hc : 0 < cnt s h') by (eapply reach_cnt; [done|by eapply cnt_var]). specialize (Hf h' Hc) as Hfh.
      destruct (JH_via s d f t x h h' inc_sync inc_sync 1 HI HJ Hx Hm Hr ltac:(lia)) as (HJ1&Hm1&_).
      destruct (JH_via s _ _ t x h h' dec_acq true (-1) HI HJ1 Hx Hm1 Hr) as (HJ2&Hm2&_); [unfold plus; rewrite decide_True by done; lia|].
      eapply JH_ext; [eapply JH_read; done|]. intros b. unfold plus. case_decide; lia.
    - assert (Hc : 0 < cnt s h') by (eapply reach_cnt; [done|by eapply cnt_var]). specialize (Hf h' Hc) as Hfh.
      destruct (JH_via s d f t x h h' inc_sync inc_sync 1 HI HJ Hx Hm Hr ltac:(lia)) as (HJ1&Hm1&_).
      destruct (JH_via s _ _ t x h h' dec_acq true (-1) HI HJ1 Hx Hm1 Hr) as (HJ2&Hm2&_); [unfold plus; rewrite decide_True by done; lia|].
      destruct (JH_read s _ _ t x h h' HI HJ2 Hx Hm2 Hr) as [HJ3 Hm3].
      assert (HJ4 : JH s (done_ t x (see t h' Read (done_ t x (crmw dec_acq true (-1) t h' (done_ t x (crmw inc_sync inc_sync 1 t h' d)))))) f).
      { eapply JH_ext; [done|]. intros b. unfold plus. case_decide; lia. }
      simpl. destruct (ents s !! h') as [n|] eqn:Hn; [|done]. destruct (kids n !! j) as [h2|] eqn:Hk; [|done].
      apply IH; [done|done| |done]. eapply reach_k; [done|done|]. by eapply elem_of_list_lookup_2.
  Qed.
End Hist.
