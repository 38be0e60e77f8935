(** The steps of [ConHb.v] one by one. *)
From Verif Require Export ConHbHist.

Section Exec.
  Context {K A R V : Type}.
  Context (P : Core.policy K A R V) (eqv : K → K → bool) (good : R → Prop).
  Context (Heq : equivalence eqv) (HP : policy_ok eqv good P).
  Context (inc_sync dec_acq : bool).

  Notation state := (state (K:=K) (A:=A) (R:=R)).
  Notation instr := (instr (K:=K) (A:=A) (R:=R)).
  Notation node := (node (R:=R)).
  Notation Inv := (Inv P eqv good).
  Notation own := (own P).
  Notation cnt := (cnt P).
  Notation kids n := (p_kids P (n_rep n)).
  Notation cov := (cov P).
  Notation J := (J P).
  Notation JH := (JH P).
  Notation ent_ok := (ent_ok P).
  Notation cexec := (cexec P eqv inc_sync true dec_acq).
  Notation cstart := (cstart (K:=K) (A:=A) (R:=R) inc_sync).
  Implicit Types (s : state) (c : hb) (d : chb) (n : node) (h b : addr) (i : instr) (f : addr → Z).

  Definition cntf s : addr → Z := λ h, match ents s !! h with Some n => n_cnt n | None => 0%Z end.
  Definition upd s s' h n' : Prop := ∀ b, ents s' !! b = if decide (b = h) then Some n' else ents s !! b.
  Lemma upd_put s s1 h n' : ents s1 = <[h:=n']> (ents s) → upd s s1 h n'.
  Proof. intros E b. rewrite E. case_decide; [subst; by rewrite lookup_insert|by rewrite lookup_insert_ne]. Qed.
  Lemma upd_ent s s' h n n' : ents s !! h = Some n → upd s s' h n' → (∀ a, a ∈ kids n' ↔ a ∈ kids n) → (p_val P (n_rep n') = None → p_val P (n_rep n) = None) → ent_ok s s'.
  Proof. intros Hn Hu Hk Hv b. rewrite Hu. case_decide; [subst; by rewrite Hn|by destruct (ents s !! b)]. Qed.
  Lemma upd_own s s' h n n' : ents s !! h = Some n → upd s s' h n' → n_own n' = n_own n → own_ok s s'.
  Proof. intros Hn Hu Ho b. rewrite Hu. case_decide; [subst; rewrite Hn; simpl; by rewrite Ho|done]. Qed.
  Lemma upd_cnt s s' h n n' : ents s !! h = Some n → upd s s' h n' → ∀ b, cntf s' b = plus h (n_cnt n' - n_cnt n)%Z (cntf s) b.
  Proof. intros Hn Hu b. unfold cntf, plus. rewrite Hu. case_decide; [subst; rewrite Hn; lia|done]. Qed.
  Lemma ents_ent s s' : ents s' = ents s → ent_ok s s'.
  Proof. intros E b. rewrite E. by destruct (ents s !! b). Qed.
  Lemma ents_own s s' : ents s' = ents s → own_ok s s'.
  Proof. intros E b. by rewrite E. Qed.
  Lemma ents_cnt s s' : ents s' = ents s → ∀ b, cntf s' b = cntf s b.
  Proof. intros E b. unfold cntf. by rewrite E. Qed.

  (** ** Moves *)
  Lemma JH_to s s' d d' f : JH s d f → J s' (co d') (lset d') → (∀ e D, past (co d) !! e = Some D → past (co d') !! e = Some D) →
    (∀ h, is_Some (ents s' !! h) → is_Some (ents s !! h) ∧ hist d' h = hist d h ∧ cset (co d') h = cset (co d) h ∧
       vis s (co d) (lset d) h ⊆ vis s' (co d') (lset d') h ∧ cntf s' h = f h) → JH s' d' (cntf s').
  Proof.
    intros [HJ HH] HJ' Hp Hh. split; [done|]. intros h Hs. destruct (Hh h Hs) as (Hi&E1&E2&Hv&->). eapply hok_keep; [by apply HH|done|done|done|done].
  Qed.
  Lemma JH_head s s' d f t i rest pre : JH s d f → stack s t = i :: rest → vars s' = vars s → stk_is s s' t (pre ++ rest) → ent_ok s s' → own_ok s s' →
    (∀ h, cntf s' h = f h) →
    (∀ h, 0 < lsum (own h) pre → 0 < own h i ∨ knowsW (co d) (knows (co d) t) h) →
    (∀ h, 0 < own h i → 0 < lsum (own h) pre ∨ ∀ e, e ∈ knows (co d) t → cov s' (co d) (lset d) h e) →
    (∀ h, IErase h ∈ pre → cset (co d) h ⊆ knows (co d) t) → JH s' d (cntf s').
  Proof.
    intros HJ Hst Hv Hsk Hent Hown Hf Ht Hc Hz. eapply JH_to; [done| |done|].
    - eapply (J_head P s s' (co d) (lset d) t i rest pre); try done. apply HJ.
    - intros h Hs. split_and!; try done; [|by rewrite (vis_same s s')]. specialize (Hent h). destruct (ents s !! h), (ents s' !! h); done.
  Qed.
  (** a stack moves, with the handles it had *)
  Lemma JH_move s s' d t i rest pre : JH s d (cntf s) → stack s t = i :: rest → vars s' = vars s → stk_is s s' t (pre ++ rest) → ents s' = ents s →
    (∀ h, lsum (own h) pre = own h i) → (∀ h, IErase h ∉ pre) → JH s' d (cntf s').
  Proof.
    intros HJ Hst Hv Hsk He Ho Hz. eapply (JH_head s s' d (cntf s) t i rest pre); try done.
    - by apply ents_ent.
    - by apply ents_own.
    - by apply ents_cnt.
    - intros h. rewrite Ho. auto.
    - intros h. rewrite Ho. auto.
    - intros h Hi. by apply Hz in Hi.
  Qed.
  (** a handle more, a handle less *)
  Lemma JH_incr s s' d t i rest pre h n : JH s d (plus h 1 (cntf s)) → stack s t = i :: rest → vars s' = vars s → stk_is s s' t (pre ++ rest) →
    ents s !! h = Some n → ents s' = <[h:=with_cnt n (n_cnt n + 1)]> (ents s) → knowsW (co d) (knows (co d) t) h →
    (∀ b, lsum (own b) pre = own b i + at_ b h) → (∀ h, IErase h ∉ pre) → JH s' d (cntf s').
  Proof.
    intros HJ Hst Hv Hsk Hn He HW Ho Hz. apply upd_put in He. eapply (JH_head s s' d _ t i rest pre); try done.
    - by eapply upd_ent.
    - by eapply upd_own.
    - intros b. rewrite (upd_cnt s s' h n _ Hn He). simpl. unfold plus. case_decide; lia.
    - intros b Hb. rewrite Ho in Hb. unfold at_ in Hb. case_decide; [subst; by right|left; lia].
    - intros b Hb. left. rewrite Ho. lia.
    - intros b Hi. by apply Hz in Hi.
  Qed.
  Lemma JH_decr s s' d t i rest h n : JH s d (plus h (-1) (cntf s)) → stack s t = i :: rest → vars s' = vars s → stk_is s s' t rest →
    ents s !! h = Some n → ents s' = <[h:=with_cnt n (n_cnt n - 1)]> (ents s) → knows (co d) t ⊆ cset (co d) h →
    (∀ b, own b i = at_ b h) → JH s' d (cntf s').
  Proof.
    intros HJ Hst Hv Hsk Hn He HW Ho. apply upd_put in He. eapply (JH_head s s' d _ t i rest []); try done.
    - by eapply upd_ent.
    - by eapply upd_own.
    - intros b. rewrite (upd_cnt s s' h n _ Hn He). simpl. unfold plus. case_decide; lia.
    - intros b. rewrite lsum_nil. lia.
    - intros b Hb. right. rewrite Ho in Hb. apply at_pos in Hb as ->. intros e Hin. apply HW in Hin. unfold cset in Hin.
      destruct (nd (co d) !! h) as [[j E]|] eqn:Hj; [|set_solver]. by eapply cov_c.
    - intros b Hi. by apply elem_of_nil in Hi.
  Qed.
  (** objects change too *)
  Lemma JH_obs s s' d f t old new rest O : JH s d f → stack s t = old ++ rest → stk_is s s' t (new ++ rest) → ent_ok s s' → own_ok s s' → (∀ h, cntf s' h = f h) →
    (∀ x w r, O !! x = Some (w, r) → closed (co d) w ∧ closed (co d) r) →
    (∀ x, is_Some (O !! x) ↔ ∃ h, vars s' !! x = Some (Some h)) →
    (∀ x h w r, vars s' !! x = Some (Some h) → O !! x = Some (w, r) →
       (vars s !! x = Some (Some h) ∧ ob (co d) !! x = Some (w, r)) ∨ knowsW (co d) w h) →
    (∀ h, 0 < lsum (own h) new → 0 < lsum (own h) old ∨ knowsW (co d) (knows (co d) t) h) →
    (∀ x h w r, vars s !! x = Some (Some h) → ob (co d) !! x = Some (w, r) →
       (vars s' !! x = Some (Some h) ∧ O !! x = Some (w, r)) ∨ (w ∪ r ⊆ knows (co d) t ∧ (0 < lsum (own h) new ∨ ∃ y r', vars s' !! y = Some (Some h) ∧ O !! y = Some (knows (co d) t, r')))) →
    (∀ h, 0 < lsum (own h) old → 0 < lsum (own h) new ∨ ∃ y r', vars s' !! y = Some (Some h) ∧ O !! y = Some (knows (co d) t, r')) →
    (∀ h, IErase h ∉ new) → JH s' (on_co (set_ob O) d) (cntf s').
  Proof.
    intros HJH Hst Hsk Hent Hown Hf HO Hob Oobj Othr Cobj Cthr Hz. pose proof HJH as [HJ _]. pose proof (Hsk t) as Hskt. rewrite decide_True in Hskt by done.
    eapply JH_to; [done| |done|].
    2:{ intros h Hs. split_and!; try done; [|by rewrite (vis_same s s')]. specialize (Hent h). destruct (ents s !! h), (ents s' !! h); done. }
    assert (Hcv : ∀ h e, e ∈ knows (co d) t → (0 < lsum (own h) new ∨ ∃ y r', vars s' !! y = Some (Some h) ∧ O !! y = Some (knows (co d) t, r')) →
      cov s' (set_ob O (co d)) (lset d) h e).
    { intros h e He [Hp|(y&r'&Hy&Hr)].
      - apply lsum_pos in Hp as (i&Hi&Ho). eapply cov_t; [|done|done]. rewrite Hskt, elem_of_app. auto.
      - eapply cov_o; [done|done|]. set_solver. }
    eapply (J_st P s s' (co d) (set_ob O (co d)) (lset d) (lset d) t); try done.
    - by apply set_ob_wf; [apply HJ|].
    - apply (j_lk _ _ _ _ HJ).
    - intros h. by rewrite (vis_same s s').
    - intros u Hu. by rewrite Hsk, decide_False.
    - by apply (own_in P s s' (co d) (lset d)).
    - intros x h w r Hx Hw. destruct (Oobj x h w r Hx Hw) as [[??]|?]; [left; eauto|by right].
    - intros i h Hi Ho. rewrite Hskt, elem_of_app in Hi. rewrite Hst. destruct Hi as [Hi|Hi]; [|left; exists i; rewrite elem_of_app; auto].
      destruct (Othr h) as [Hp|?]; [apply lsum_pos; eauto| |by right]. apply lsum_pos in Hp as (i0&?&?). left. exists i0. rewrite elem_of_app. auto.
    - intros x h w r e Hx Hw He. destruct (Cobj x h w r Hx Hw) as [[??]|[Hs Hp]]; [by eapply cov_o|]. apply Hcv; [by apply Hs|done].
    - intros i h e Hi Ho He. rewrite Hst, elem_of_app in Hi. destruct Hi as [Hi|Hi]; [|left; exists i; rewrite Hskt, elem_of_app; auto].
      right. apply Hcv; [done|]. apply Cthr, lsum_pos. eauto.
    - intros h Hi. rewrite Hskt, elem_of_app in Hi. left. rewrite Hst, elem_of_app. destruct Hi as [Hi|Hi]; [by apply Hz in Hi|auto].
  Qed.

  Lemma lset_leave t h d b : lset (leave t h d) b = if decide (b = h) then lset d h ∪ knows (co d) t else lset d b.
  Proof. unfold lset at 1, leave. simpl. case_decide; [subst; by rewrite lookup_insert|by rewrite lookup_insert_ne]. Qed.
  Lemma vis_upd s s' c L h n n' b : ents s !! h = Some n → upd s s' h n' → b ≠ h → vis s' c L b = vis s c L b.
  Proof. intros Hn Hu Hne. unfold vis. by rewrite Hu, decide_False. Qed.
  Lemma JH_leave s s' d t i rest pre h n : JH s d (cntf s) → stack s t = i :: rest → ents s !! h = Some n → n_own n = Some t → vars s' = vars s →
    stk_is s s' t (pre ++ rest) → ents s' = <[h:=with_own n None]> (ents s) →
    (∀ b, lsum (own b) pre = own b i) → (∀ b, IErase b ∉ pre) → JH s' (leave t h d) (cntf s').
  Proof.
    intros HJ Hst Hn Ho Hv Hsk He Hsum Hne. apply upd_put in He. eapply JH_to; [done| |done|].
    - eapply (J_leave P eqv good Heq HP s s' (co d) (lset d) _ t i rest pre h n); try done; [apply HJ|]. intros b. apply lset_leave.
    - intros b Hb. split_and!; try done.
      + rewrite He in Hb. case_decide; [subst; by eexists|done].
      + destruct (decide (b = h)) as [->|Hbh].
        * unfold vis. rewrite Hn, Ho, He, decide_True by done. simpl. rewrite lset_leave, decide_True by done. set_solver.
        * rewrite (vis_upd s s' _ _ h n _ b Hn He Hbh). unfold vis. destruct (ents s !! b) as [m|]; [|done]. destruct (n_own m); [done|].
          by rewrite lset_leave, decide_False.
      + rewrite (upd_cnt s s' h n _ Hn He). simpl. unfold plus. case_decide; lia.
  Qed.
  Lemma JH_enter s s' d t h n old rest pre : Inv s → JH s d (cntf s) → stack s t = old ++ rest → ents s !! h = Some n → n_own n = None → vars s' = vars s →
    stk_is s s' t (pre ++ rest) → ents s' = <[h:=with_own n (Some t)]> (ents s) →
    (∀ b, lsum (own b) pre = lsum (own b) old) → (∀ b, IErase b ∉ pre) → JH s' (enter t h d) (cntf s').
  Proof.
    intros HI HJ Hst Hn Ho Hv Hsk He Hsum Hne. apply upd_put in He.
    assert (HJ1 : JH s (enter t h d) (cntf s)) by (apply (JH_learn P eqv good Heq HP); [done|done|apply (j_lk _ _ _ _ (proj1 HJ))]).
    assert (Hin : lset d h ⊆ knows (co (enter t h d)) t) by (simpl; rewrite knows_learn, decide_True by done; set_solver).
    set (d1 := enter t h d) in *. change (lset d h) with (lset d1 h) in Hin. eapply JH_to; [done| |done|].
    - eapply (J_get P s s' (co d1) (lset d1) t h n); try done; [apply HJ1|apply (j_lk _ _ _ _ (proj1 HJ1))|by exists old, rest, pre].
    - intros b Hb. split_and!; try done.
      + rewrite He in Hb. case_decide; [subst; by eexists|done].
      + destruct (decide (b = h)) as [->|Hbh]; [|by rewrite (vis_upd s s' _ _ h n _ b Hn He Hbh)].
        unfold vis. rewrite Hn, Ho, He, decide_True by done. done.
      + rewrite (upd_cnt s s' h n _ Hn He). simpl. unfold plus. case_decide; lia.
  Qed.

  Lemma cntf_pos s b : Inv s → 0 < cnt s b → (0 < cntf s b)%Z.
  Proof.
    intros HI H. destruct (present P eqv good s b HI H) as (n&Hn&_). unfold cntf. rewrite Hn.
    destruct (i_cnt _ _ _ _ HI b n Hn) as [-> _]. lia.
  Qed.
  (** a thread that counts operates on the counter *)
  Lemma JH_own s d t i h acq rls z : Inv s → JH s d (cntf s) → i ∈ stack s t → 0 < own h i →
    JH s (crmw acq rls z t h d) (plus h z (cntf s)).
  Proof.
    intros HI HJ Hi Ho. pose proof (cnt_own P s t i h Hi Ho) as Hc.
    eapply (JH_rmw P eqv good Heq HP s d (cntf s) t h acq rls z None); try done.
    - by eapply (j_thr _ _ _ _ (proj1 HJ)).
    - destruct (present P eqv good s h HI Hc) as (n&?&_). eauto.
    - by eapply no_erase.
    - left. eauto.
    - left. split; [done|]. pose proof (cntf_pos s h HI Hc). lia.
  Qed.
  Lemma dec_cset t h d : is_Some (nd (co d) !! h) → knows (co (crmw dec_acq true (-1) t h d)) t ⊆ cset (co (crmw dec_acq true (-1) t h d)) h.
  Proof.
    intros [[j E] Hj]. unfold crmw. cbn [co]. unfold cset at 1. rewrite (nd_rmw _ _ _ _ _ _ _ Hj), lookup_insert, knows_rmw, decide_True by done.
    unfold cset. rewrite Hj. set_solver.
  Qed.
  Lemma JH_release s d t i rest h s' n : Inv s → JH s d (cntf s) → stack s t = i :: rest → (∀ b, own b i = at_ b h) → ents s !! h = Some n →
    ents s' = <[h:=with_cnt n (n_cnt n - 1)]> (ents s) → vars s' = vars s → stk_is s s' t rest → JH s' (crmw dec_acq true (-1) t h d) (cntf s').
  Proof.
    intros HI HJ Hst Ho Hn He Hv Hsk. assert (Hi : i ∈ stack s t) by (rewrite Hst; by left).
    eapply (JH_decr s s' _ t i rest h n); try done.
    - eapply JH_own; try done. rewrite Ho, at_eq. lia.
    - apply dec_cset. apply (j_nd _ _ _ _ (proj1 HJ)). by eexists.
  Qed.
  Lemma JH_again s d t i rest pre h s' n : Inv s → JH s d (cntf s) → stack s t = i :: rest → 0 < own h i → ents s !! h = Some n →
    ents s' = <[h:=with_cnt n (n_cnt n + 1)]> (ents s) → vars s' = vars s → stk_is s s' t (pre ++ rest) →
    (∀ b, lsum (own b) pre = own b i + at_ b h) → (∀ h, IErase h ∉ pre) → JH s' (cincr inc_sync t h d) (cntf s').
  Proof.
    intros HI HJ Hst Ho Hn He Hv Hsk Hs Hz. assert (Hi : i ∈ stack s t) by (rewrite Hst; by left).
    assert (HJ1 : JH s (cincr inc_sync t h d) (plus h 1 (cntf s))) by (by eapply JH_own).
    eapply (JH_incr s s' _ t i rest pre h n); try done. by eapply (j_thr _ _ _ _ (proj1 HJ1)).
  Qed.

  Lemma making_var s t x i : Inv s → i ∈ stack s t → 0 < making x i → vars s !! x = Some None.
  Proof.
    intros HI Hi Hm. pose proof (tsum_elem (making x) s t _ Hi) as Hx. rewrite (i_vars _ _ _ _ HI x) in Hx.
    destruct (vars s !! x) as [[|]|]; [lia|done|lia].
  Qed.
  Ltac notin := intros ?; rewrite ?elem_of_app, ?elem_of_cons, ?elem_of_nil, ?elem_of_list_fmap; naive_solver.

  (** one micro-instruction *)
  Lemma exec_JH s d t i rest thr s' : Inv s → JH s d (cntf s) → stack s t = i :: rest → match i with ITest _ => False | _ => True end →
    exec P eqv s t i rest thr = Next s' → Inv s' → JH s' (cexec s t i thr d) (cntf s').
  Proof.
    intros HI HJ Hst Hnt He HI'. assert (Htop : i ∈ stack s t) by (rewrite Hst; by left). pose proof (i_ok _ _ _ _ HI t i Htop) as Hok.
    assert (Hst1 : stack s t = [i] ++ rest) by done. pose proof (proj1 HJ) as HJ0.
    assert (Hac : ∀ h, 0 < acc h i → ∃ n, ents s !! h = Some n ∧ n_own n = Some t) by (intros h; by apply (accessed P eqv good s t i h HI)).
    destruct i as [x p [|y ys] got|x p r|x h p ks k|x h ks k|x h ks k|h|x h k|x|x h|x y hx hy|x y hx hy|x y hx hy|h [|j]|h|h|h]; cbn [exec] in He; cbn [ConHb.cexec].
    - (* IMake *)
      destruct (p_make P p got) as [r|] eqn:Em; injection He as <-.
      + destruct (po_make _ _ _ HP _ _ _ Em) as [_ Hk]. eapply (JH_move s _ d t _ rest [IEnter x p r]); try done; [by apply stk_set|sums; by rewrite ?Hk|notin].
      + eapply (JH_move s _ d t _ rest (map IRelease got ++ [IAbort x])); try done; [rewrite <- app_assoc; by apply stk_set|by sums|notin].
    - destruct (live s y) as [h|] eqn:El; [|done]. apply live_vars in El. unfold add_ref in He. destruct (ents s !! h) as [n|] eqn:Hn; [|done]. injection He as <-.
      assert (Hf : cntf s h ≠ 0%Z) by (pose proof (cntf_pos s h HI (cnt_var P s y h El)); lia).
      destruct (JH_copy P eqv good Heq HP inc_sync s d (cntf s) t y h HI HJ El Hf) as (HJ1&Hm&_).
      eapply (JH_incr s _ _ t _ rest [IMake x p ys (got ++ [h])] h n); try done.
      + by apply stk_set.
      + eapply (reach_W P eqv good s _ _ t y h h HI HJ1 El Hm). constructor.
      + sums. unfold at_. case_decide; lia.
      + notin.
    - (* IEnter *)
      destruct thr.
      { injection He as <-. eapply (JH_move s _ d t _ rest (map IRelease (p_kids P r) ++ [IAbort x])); try done; [rewrite <- app_assoc; by apply stk_set|by sums|notin]. }
      destruct (find P eqv s (p_key P r)) as [h|] eqn:Ef.
      + destruct (ents s !! h) as [[r' z [o|]]|] eqn:Hn; [done| |done]. injection He as <-.
        eapply (JH_see P eqv good Heq HP _ _ _ t h (Node r' z (Some t))); [done| |simpl; by rewrite lookup_insert|done|by left].
        eapply (JH_enter s _ d t h _ [IEnter x p r] rest [IVisit x h p (p_kids P r) (p_key P r)]); try done; [by apply stk_set|notin].
      + injection He as <-. set (a := clock s) in *. assert (Ha : ents s !! a = None).
        { destruct (ents s !! a) as [m|] eqn:E; [|done]. apply (i_low _ _ _ _ HI) in E. unfold a in E. lia. }
        set (n0 := Node r 0 (Some t)). set (s' := set_clock _ _).
        assert (Hu : upd s s' a n0) by (by apply upd_put).
        assert (Hsk : stk_is s s' t (IVisit x a p [] (p_key P r) :: rest)) by (by apply stk_set).
        assert (Hskt : stack s' t = IVisit x a p [] (p_key P r) :: rest) by (by rewrite Hsk, decide_True).
        assert (Hls : ∀ b, lset (ccreate t a d) b = if decide (b = a) then ∅ else lset d b).
        { intros b. unfold lset at 1, ccreate. simpl. case_decide; [subst; by rewrite lookup_insert|by rewrite lookup_insert_ne]. }
        assert (HJ' : J s' (co (ccreate t a d)) (lset (ccreate t a d))).
        { eapply (J_create P eqv good Heq HP s s' (co d) (lset d) _ t a n0); try done.
          - intros u Hne. by rewrite Hsk, decide_False.
          - intros i b Hi Ho. rewrite Hskt in Hi. apply elem_of_cons in Hi as [->|Hi]; [simpl in Ho; rewrite occ_nil in Ho; lia|].
            exists i. rewrite Hst. split; [by right|done].
          - intros i b Hi Ho. rewrite Hst in Hi. apply elem_of_cons in Hi as [->|Hi]; [right; simpl in Ho; by apply occ_pos|].
            left. exists i. rewrite Hskt. split; [by right|done].
          - intros b Hb. exists (IEnter x p r). split; [done|]. simpl. by apply occ_pos.
          - intros b Hi. rewrite Hskt in Hi. rewrite Hst. apply elem_of_cons in Hi as [?|Hi]; [done|by right].
          - intros u Hi. destruct (accessed P eqv good s u _ a HI Hi) as (m&Hm&_); [simpl; rewrite at_eq; lia|]. congruence. }
        split; [done|]. intros b Hb. unfold cntf. rewrite Hu. destruct (decide (b = a)) as [->|Hne].
        * assert (Hh : hist (ccreate t a d) a = [(nxt (co d), 0%Z, ∅)]) by (unfold hist, ccreate; simpl; by rewrite lookup_insert).
          assert (Hcs : cset (co (ccreate t a d)) a = ∅) by (unfold cset, ccreate; simpl; by rewrite lookup_insert).
          split.
          -- rewrite Hh, Hcs. simpl. eauto.
          -- rewrite Hh. intros w ->%elem_of_list_singleton. simpl. apply closed_empty.
          -- intros i e E. rewrite Hh. simpl. by rewrite lookup_nil.
        * rewrite Hu, decide_False in Hb by done. destruct HJ as [_ HH]. specialize (HH b Hb). unfold cntf in HH.
          eapply hok_keep; [done| | | |].
          -- unfold hist, ccreate. simpl. by rewrite lookup_insert_ne.
          -- unfold cset, ccreate. simpl. by rewrite lookup_insert_ne.
          -- unfold vis. rewrite Hu, decide_False by done. destruct (ents s !! b) as [m|]; [|done]. destruct (n_own m) as [u|].
             ++ change (knows (co d) u ⊆ knows (emit t [(MRep (nxt (co d)), Write); (MRef (nxt (co d)), Write)] (co d)) u). rewrite knows_emit. case_decide; subst; set_solver.
             ++ by rewrite Hls, decide_False.
          -- intros e D. apply (past_emit t [(MRep (nxt (co d)), Write); (MRef (nxt (co d)), Write)] (co d) e D), HJ0.
    - (* IVisit *)
      destruct Hok as [(ks0&r0&Hm&<-) (n&Hn&Hk)]. destruct (Hac h) as (n0&Hn0&Hown); [simpl; rewrite at_eq; lia|]. simplify_eq. rewrite Hn in He |- *.
      destruct (p_val P (n_rep n)) as [v|] eqn:Ev.
      + injection He as <-. eapply (JH_move s _ _ t _ rest [_]); try done; [|by apply stk_set|by sums|notin].
        eapply (JH_see P eqv good Heq HP); try done. by left.
      + destruct thr; injection He as <-.
        * eapply (JH_leave s _ _ t _ rest (map IRelease ks ++ [IAbort x]) h n); try done; [|rewrite <- app_assoc; by apply stk_set|by sums|notin].
          eapply (JH_see P eqv good Heq HP); try done. by left.
        * destruct (i_made _ _ _ _ HI h n Hn Ev) as (p'&ks'&Hm').
          destruct (po_build _ _ _ HP _ _ _ _ _ _ Hm Hm' Hk Ev) as (Hsv&Hgd&Hke&Hkd). set (n' := with_rep n (p_build P p (n_rep n))). set (s' := add_log _ _).
          assert (Hu : upd s s' h n') by (by apply upd_put).
          eapply (JH_head s s' _ (cntf s) t _ rest [IAddRef x h ks (p_key P r0)]); try done.
          -- eapply (JH_see P eqv good Heq HP); try done. by right.
          -- eapply (stk_set s _ t). done.
          -- eapply upd_ent; [done|done| |]; [|done]. intros a. simpl. by rewrite <- !occ_pos, Hkd.
          -- by eapply upd_own.
          -- intros b. rewrite (upd_cnt s s' h n n' Hn Hu). unfold plus. simpl. case_decide; lia.
          -- intros b. rewrite lsum_cons, lsum_nil, Nat.add_0_r. auto.
          -- intros b. rewrite lsum_cons, lsum_nil, Nat.add_0_r. auto.
          -- intros b. rewrite elem_of_list_singleton. done.
    - (* IAddRef *)
      destruct (Hac h) as (n&Hn&Hown); [simpl; rewrite at_eq; lia|]. unfold add_ref in He. rewrite Hn in He. injection He as <-.
      pose proof (λ c, vis_own s c (lset d) h n t Hn Hown) as Hv.
      assert (HJ1 : JH s (cincr inc_sync t h d) (plus h 1 (cntf s))).
      { eapply (JH_rmw P eqv good Heq HP s d (cntf s) t h inc_sync inc_sync 1 None); try done.
        - rewrite <- Hv. apply (j_wr _ _ _ _ HJ0).
        - intros u Hi. destruct (accessed P eqv good s u _ h HI Hi) as (n1&Hn1&Ho1); [simpl; rewrite at_eq; lia|]. assert (u = t) as -> by congruence.
          pose proof (i_acc _ _ _ _ HI h t) as Hs. rewrite Hn, Hown in Hs. unfold has in Hs. rewrite decide_True in Hs by done.
          rewrite Hst in Hi, Hs. apply elem_of_cons in Hi as [?|Hi]; [done|]. apply (lsum_elem (acc h)) in Hi. rewrite lsum_cons in Hs. simpl in Hs, Hi. rewrite at_eq in Hs, Hi. lia.
        - by right.
        - by right. }
      eapply (JH_incr s _ _ t _ rest [ILeave x h ks k] h n); try done.
      + by apply stk_set.
      + rewrite <- (vis_own s _ (lset (cincr inc_sync t h d)) h n t Hn Hown). apply (j_wr _ _ _ _ (proj1 HJ1)).
      + sums.
      + notin.
    - (* ILeave *)
      destruct (Hac h) as (n&Hn&Hown); [simpl; rewrite at_eq; lia|]. rewrite Hn in He. injection He as <-.
      eapply (JH_leave s _ _ t _ rest (map IRelease ks ++ [IBind x h k]) h n); try done; [rewrite <- app_assoc; by apply stk_set|by sums|notin].
    - (* IRelease *)
      unfold release in He. destruct (ents s !! h) as [n|] eqn:Hn; [|done]. injection He as <-. eapply (JH_release s d t _ rest h _ n); try done. by apply stk_set.
    - (* IBind *)
      injection He as <-. assert (Hx : vars s !! x = Some None) by (eapply making_var; [done|done|simpl; rewrite at_eq; lia]).
      eapply (JH_obs s _ d (cntf s) t [IBind x h k] [] rest (<[x:=(knows (co d) t, ∅)]> (ob (co d)))); try done.
      + eapply (stk_set s _ t). done.
      + by apply ents_ent.
      + intros y w r H. apply lookup_insert_Some in H as [[_ [= <- <-]]|[_ H]]; [split; [apply (w_kn _ (j_wf _ _ _ _ HJ0))|apply closed_empty]|by eapply (w_ob _ (j_wf _ _ _ _ HJ0))].
      + intros y. simpl. destruct (decide (y = x)) as [->|Hne]; [rewrite !lookup_insert; split; [by exists h|by eexists]|].
        rewrite !lookup_insert_ne by done. apply (j_ob _ _ _ _ HJ0).
      + intros y b w r Hy Hw. simpl in Hy. destruct (decide (y = x)) as [->|Hne].
        * rewrite lookup_insert in Hy. rewrite lookup_insert in Hw. injection Hy as <-. injection Hw as <- <-. right. eapply (j_thr _ _ _ _ HJ0); [done|]. simpl. rewrite at_eq. lia.
        * rewrite lookup_insert_ne in Hy by done. rewrite lookup_insert_ne in Hw by done. by left.
      + intros b. rewrite lsum_nil. lia.
      + intros y b w r Hy Hw. left. assert (y ≠ x) by congruence. simpl. by rewrite !lookup_insert_ne.
      + intros b. rewrite lsum_cons, lsum_nil, Nat.add_0_r. intros Hb%at_pos. subst b. right. exists x, ∅. simpl. by rewrite !lookup_insert.
      + notin.
    - (* IAbort *)
      injection He as <-. assert (Hx : vars s !! x = Some None) by (eapply making_var; [done|done|simpl; rewrite at_eq; lia]). set (s' := add_log _ _).
      assert (Hvs : ∀ y b, vars s' !! y = Some (Some b) ↔ vars s !! y = Some (Some b)).
      { intros y b. simpl. rewrite lookup_delete_Some. split; [by intros [_ ?]|]. intros Hy. split; [congruence|done]. }
      assert (HJ1 : JH s' (on_co (set_ob (ob (co d))) d) (cntf s')).
      { eapply (JH_obs s _ d (cntf s) t [IAbort x] [] rest); try done.
        - eapply (stk_set s _ t). done.
        - by apply ents_ent.
        - intros y w r. apply (w_ob _ (j_wf _ _ _ _ HJ0)).
        - intros y. rewrite (j_ob _ _ _ _ HJ0). split; intros [b Hb]; exists b; by apply Hvs.
        - intros y b w r Hy Hw. left. by apply Hvs in Hy.
        - intros b. rewrite lsum_nil. lia.
        - intros y b w r Hy Hw. left. by rewrite Hvs.
        - intros b. rewrite lsum_cons, lsum_nil. simpl. lia.
        - notin. }
      by destruct d as [[] ? ?].
    - (* IRead *)
      destruct (decide (live s x = Some h)) as [El|]; [|done]. apply live_vars in El. destruct (ents s !! h) as [n|] eqn:Hn; [|done]. destruct (p_val P (n_rep n)); [|done]. injection He as <-.
      destruct (JH_use P eqv good Heq HP s d _ t x HI HJ) as [HJ1 Hm1].
      destruct (JH_read P eqv good Heq HP s _ _ t x h h HI HJ1 El Hm1) as [HJ2 _]; [constructor|].
      eapply (JH_move s _ _ t _ rest []); try done; [eapply (stk_set s _ t); done|notin].
    - (* ISwap1 *)
      unfold add_ref in He. destruct (ents s !! hy) as [n|] eqn:Hn; [|done]. injection He as <-.
      eapply (JH_again s d t _ rest [IRelease hx; ISwap2 x y hx hy] hy _ n); try done; [simpl; rewrite at_eq; lia|by apply stk_set|by sums|notin].
    - (* ISwap2 *)
      unfold add_ref in He. destruct (ents s !! hx) as [n|] eqn:Hn; [|done]. injection He as <-.
      eapply (JH_again s d t _ rest [IRelease hy; IRelease hx; ISwap3 x y hx hy] hx _ n); try done; [simpl; rewrite at_eq; lia|by apply stk_set|by sums|notin].
    - (* ISwap3 *)
      injection He as <-. assert (Hx : vars s !! x = Some None) by (eapply making_var; [done|done|simpl; rewrite at_eq; lia]).
      assert (Hy : vars s !! y = Some None) by (eapply making_var; [done|done|simpl; rewrite (at_eq y); lia]).
      assert (Hxy : x ≠ y). { intros ->. pose proof (tsum_elem (making y) s t _ Htop) as H. rewrite (i_vars _ _ _ _ HI y), Hy in H. simpl in H. rewrite at_eq in H. lia. }
      eapply (JH_obs s _ d (cntf s) t [ISwap3 x y hx hy] [] rest (<[y:=(knows (co d) t, ∅)]> (<[x:=(knows (co d) t, ∅)]> (ob (co d))))); try done.
      + eapply (stk_set s _ t). done.
      + by apply ents_ent.
      + intros z w r H. pose proof (j_wf _ _ _ _ HJ0) as W.
        apply lookup_insert_Some in H as [[_ [= <- <-]]|[_ H]]; [split; [apply (w_kn _ W)|apply closed_empty]|].
        apply lookup_insert_Some in H as [[_ [= <- <-]]|[_ H]]; [split; [apply (w_kn _ W)|apply closed_empty]|by eapply (w_ob _ W)].
      + intros z. simpl. destruct (decide (z = y)) as [->|Hzy]; [rewrite !lookup_insert; split; [by exists hx|by eexists]|]. rewrite !(lookup_insert_ne _ y) by done.
        destruct (decide (z = x)) as [->|Hzx]; [rewrite !lookup_insert; split; [by exists hy|by eexists]|]. rewrite !lookup_insert_ne by done. apply (j_ob _ _ _ _ HJ0).
      + intros z b w r Hz Hw. simpl in Hz. destruct (decide (z = y)) as [->|Hzy].
        { rewrite lookup_insert in Hz. rewrite lookup_insert in Hw. injection Hz as <-. injection Hw as <- <-. right. eapply (j_thr _ _ _ _ HJ0); [done|]. simpl. rewrite at_eq. lia. }
        rewrite lookup_insert_ne in Hz by done. rewrite lookup_insert_ne in Hw by done. destruct (decide (z = x)) as [->|Hzx].
        { rewrite lookup_insert in Hz. rewrite lookup_insert in Hw. injection Hz as <-. injection Hw as <- <-. right. eapply (j_thr _ _ _ _ HJ0); [done|]. simpl. rewrite at_eq. lia. }
        rewrite lookup_insert_ne in Hz by done. rewrite lookup_insert_ne in Hw by done. by left.
      + intros b. rewrite lsum_nil. lia.
      + intros z b w r Hz Hw. left. assert (z ≠ x) by congruence. assert (z ≠ y) by congruence. simpl. by rewrite !lookup_insert_ne.
      + intros b. rewrite lsum_cons, lsum_nil, Nat.add_0_r. simpl. intros Hb. right. assert (b = hx ∨ b = hy) as [->| ->] by (unfold at_ in Hb; repeat case_decide; auto; lia).
        * exists y, ∅. simpl. by rewrite !lookup_insert.
        * exists x, ∅. simpl. rewrite !(lookup_insert_ne _ y) by done. by rewrite !lookup_insert.
      + notin.
    - (* IDup *)
      unfold release in He. destruct (ents s !! h) as [n|] eqn:Hn; [|done]. injection He as <-. eapply (JH_release s d t _ rest h _ n); try done. by apply stk_set.
    - unfold add_ref in He. destruct (ents s !! h) as [n|] eqn:Hn; [|done]. injection He as <-.
      eapply (JH_again s d t _ rest [IRelease h; IDup h j] h _ n); try done; [simpl; rewrite at_eq; lia|by apply stk_set|by sums|notin].
    - (* ITest *) done.
    - (* IErase *)
      destruct (Hac h) as (n&Hn&Hown); [simpl; rewrite at_eq; lia|]. rewrite Hn in He. injection He as <-. simpl in Hok. set (s' := add_log _ _).
      assert (Hu : ∀ b, ents s' !! b = if decide (b = h) then None else ents s !! b).
      { intros b. simpl. case_decide; [subst; by rewrite lookup_delete|by rewrite lookup_delete_ne]. }
      assert (Hsk : stk_is s s' t (map IRelease (kids n) ++ rest)) by (eapply (stk_set s _ t); done).
      assert (Hskt : stack s' t = map IRelease (kids n) ++ rest) by (by rewrite Hsk, decide_True).
      assert (Hls : ∀ b, lset (cdestroy t h d) b = if decide (b = h) then ∅ else lset d b).
      { intros b. unfold lset at 1, cdestroy. simpl. case_decide; [subst; by rewrite lookup_delete|by rewrite lookup_delete_ne]. }
      assert (HJ' : J s' (co (cdestroy t h d)) (lset (cdestroy t h d))).
      { eapply (J_destroy P eqv good Heq HP s s' (co d) (lset d) _ t h n); try done.
        - intros u Hne. by rewrite Hsk, decide_False.
        - intros i b Hi Ho. rewrite Hskt, elem_of_app in Hi. destruct Hi as [Hi|Hi].
          + apply elem_of_list_fmap in Hi as (b'&->&Hb'). right. simpl in Ho. by apply at_pos in Ho as ->.
          + left. exists i. rewrite Hst. split; [by right|done].
        - intros i b Hi Ho. rewrite Hst in Hi. apply elem_of_cons in Hi as [->|Hi]; [simpl in Ho; lia|]. exists i. rewrite Hskt, elem_of_app. auto.
        - intros b Hb. exists (IRelease b). rewrite Hskt, elem_of_app, elem_of_list_fmap. split; [eauto|]. simpl. rewrite at_eq. lia.
        - intros b Hi. rewrite Hskt, elem_of_app in Hi. rewrite Hst. destruct Hi as [Hi|Hi]; [|by right]. by apply elem_of_list_fmap in Hi as (?&?&_). }
      eapply JH_to; [exact HJ|done| |].
      + intros e D. apply (past_emit t [(MRep (idn (co d) h), Write); (MRef (idn (co d) h), Write)] (co d) e D), HJ0.
      + intros b Hb. rewrite Hu in Hb. case_decide as Hbh; [by destruct Hb|]. split_and!; try done.
        * unfold hist, cdestroy. simpl. by rewrite lookup_delete_ne.
        * unfold cset, cdestroy. simpl. by rewrite lookup_delete_ne.
        * unfold vis. rewrite Hu, decide_False by done. destruct (ents s !! b) as [m|]; [|done]. destruct (n_own m) as [u|]; [|by rewrite Hls, decide_False].
          change (knows (co d) u ⊆ knows (emit t [(MRep (idn (co d) h), Write); (MRef (idn (co d) h), Write)] (co d)) u). rewrite knows_emit. case_decide; subst; set_solver.
        * unfold cntf. by rewrite Hu, decide_False.
    - (* ISkip *)
      destruct (Hac h) as (n&Hn&Hown); [simpl; rewrite at_eq; lia|]. rewrite Hn in He. injection He as <-.
      eapply (JH_leave s _ _ t _ rest [] h n); try done; [by apply stk_set|notin].
  Qed.
End Exec.
