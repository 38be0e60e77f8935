(** Every step of [ConHb.v] keeps the invariant and none is undefined. *)
From Verif Require Export ConHbExec.

Section Run.
  Context {K A R V : Type}.
  Context (P : Core.policy K A R V) (eqv : K → K → bool) (good : R → Prop).
  Context (Heq : equivalence eqv) (HP : policy_ok eqv good P).
  Context (inc_sync dec_acq : bool).

  Notation state := (state (K:=K) (A:=A) (R:=R)).
  Notation instr := (instr (K:=K) (A:=A) (R:=R)).
  Notation node := (node (R:=R)).
  Notation Inv := (Inv P eqv good).
  Notation own := (own P).
  Notation cnt := (cnt P).
  Notation kids n := (p_kids P (n_rep n)).
  Notation cov := (cov P).
  Notation J := (J P).
  Notation JH := (JH P).
  Notation ent_ok := (ent_ok P).
  Notation cstart := (cstart (K:=K) (A:=A) (R:=R) inc_sync).
  Notation cstep := (cstep P eqv inc_sync true dec_acq true).
  Notation crun := (crun P eqv inc_sync true dec_acq true).
  Implicit Types (s : state) (c : hb) (d : chb) (n : node) (h b : addr) (i : instr) (f : addr → Z).

  Lemma set_ob_id d : on_co (set_ob (ob (co d))) d = d.
  Proof. by destruct d as [[] ? ?]. Qed.
  Lemma uses_W s d f t x h : JH s d f → vars s !! x = Some (Some h) → uses (co d) x ⊆ knows (co d) t → knowsW (co d) (knows (co d) t) h.
  Proof.
    intros [HJ _] Hx Hm. destruct (proj2 (j_ob _ _ _ _ HJ x)) as [[w r] Hw]; [eauto|]. unfold uses in Hm. rewrite Hw in Hm.
    intros j F a Hj Ha Hwr. apply Hm, elem_of_union_l. by eapply (j_obj _ _ _ _ HJ).
  Qed.
  Lemma made_W s d f t x h : Inv s → JH s d f → vars s !! x = Some (Some h) → made (co d) x ⊆ knows (co d) t → knowsW (co d) (knows (co d) t) h.
  Proof. intros HI HJ Hx Hm. eapply (reach_W P eqv good s d f t x h h); try done. constructor. Qed.
  Ltac notin := intros ?; rewrite ?elem_of_app, ?elem_of_cons, ?elem_of_nil, ?elem_of_list_fmap; naive_solver.

  (** an operation begins *)
  Lemma start_JH s d t o s' : Inv s → JH s d (cntf s) → stack s t = [] → start s t o = Next s' → JH s' (cstart s t o d) (cntf s').
  Proof.
    intros HI HJ Hst He. pose proof (proj1 HJ) as HJ0.
    destruct o as [x p ys|x y|x y|x y|x|x]; cbn [start] in He; cbn [ConHb.cstart].
    - destruct (vars s !! x) eqn:Ex; [done|]. injection He as <-. rewrite <- (set_ob_id d) at 1. set (s' := set_stack _ _ _).
      assert (Hvs : ∀ y b, vars s' !! y = Some (Some b) ↔ vars s !! y = Some (Some b)).
      { intros y b. simpl. destruct (decide (y = x)) as [->|Hne]; [rewrite lookup_insert, Ex; split; done|by rewrite lookup_insert_ne]. }
      eapply (JH_obs P eqv good Heq HP s s' d (cntf s) t [] [IMake x p ys []] []); try done.
      + by apply stk_set.
      + by apply ents_ent.
      + intros y w r. apply (w_ob _ (j_wf _ _ _ _ HJ0)).
      + intros y. rewrite (j_ob _ _ _ _ HJ0). split; intros [b Hb]; exists b; by apply Hvs.
      + intros y b w r Hy Hw. left. by apply Hvs in Hy.
      + intros b. rewrite lsum_cons, lsum_nil. simpl. lia.
      + intros y b w r Hy Hw. left. by rewrite Hvs.
      + intros b. rewrite lsum_nil. lia.
      + notin.
    - destruct (vars s !! x) eqn:Ex; [done|]. destruct (live s y) as [h|] eqn:El; [|done]. apply live_vars in El. unfold add_ref in He.
      destruct (ents s !! h) as [n|] eqn:Hn; [|done]. injection He as <-. set (s' := add_log _ _).
      assert (Hf : cntf s h ≠ 0%Z) by (pose proof (cntf_pos P eqv good s h HI (cnt_var P s y h El)); lia).
      destruct (JH_copy P eqv good Heq HP inc_sync s d (cntf s) t y h HI HJ El Hf) as (HJ1&Hm&_). set (d1 := ccopy inc_sync t y h d) in *.
      pose proof (proj1 HJ1) as HJ10. assert (Hu : upd s s' h (with_cnt n (n_cnt n + 1))) by (by apply upd_put).
      eapply (JH_obs P eqv good Heq HP s s' d1 _ t [] [] [] (<[x:=(knows (co d1) t, ∅)]> (ob (co d1)))); try done.
      + eapply (stk_set s _ t). done.
      + by eapply upd_ent.
      + by eapply upd_own.
      + intros b. rewrite (upd_cnt s s' h n _ Hn Hu). simpl. unfold plus. case_decide; lia.
      + intros z w r H. pose proof (j_wf _ _ _ _ HJ10) as W.
        apply lookup_insert_Some in H as [[_ [= <- <-]]|[_ H]]; [split; [apply (w_kn _ W)|apply closed_empty]|by eapply (w_ob _ W)].
      + intros z. simpl. destruct (decide (z = x)) as [->|Hne]; [rewrite !lookup_insert; split; [by exists h|by eexists]|].
        rewrite !lookup_insert_ne by done. apply (j_ob _ _ _ _ HJ10).
      + intros z b w r Hz Hw. simpl in Hz. destruct (decide (z = x)) as [->|Hne].
        * rewrite lookup_insert in Hz. rewrite lookup_insert in Hw. injection Hz as <-. injection Hw as <- <-. right. by eapply (made_W s d1 _ t).
        * rewrite lookup_insert_ne in Hz by done. rewrite lookup_insert_ne in Hw by done. by left.
      + intros b. rewrite lsum_nil. lia.
      + intros z b w r Hz Hw. left. assert (z ≠ x) by congruence. simpl. by rewrite !lookup_insert_ne.
      + intros b. rewrite lsum_nil. lia.
      + notin.
    - destruct (live s x) as [hx|] eqn:Ex; [|done]. destruct (live s y) as [h|] eqn:El; [|done]. apply live_vars in El, Ex. unfold add_ref in He.
      destruct (ents s !! h) as [n|] eqn:Hn; [|done]. injection He as <-. set (s' := add_log _ _).
      assert (Hf : cntf s h ≠ 0%Z) by (pose proof (cntf_pos P eqv good s h HI (cnt_var P s y h El)); lia).
      destruct (JH_all P eqv good Heq HP s d (cntf s) t x HI HJ) as (HJa&Ha&_). set (d0 := all_uses t x d) in *.
      destruct (JH_copy P eqv good Heq HP inc_sync s d0 (cntf s) t y h HI HJa El Hf) as (HJ1&Hm&Hus&Hkn). set (d1 := ccopy inc_sync t y h d0) in *.
      assert (Hux : uses (co d1) x ⊆ knows (co d1) t) by (etrans; [apply Hus|]; apply union_subseteq; split; [etrans; [exact Ha|apply Hkn]|done]).
      pose proof (proj1 HJ1) as HJ10. assert (Hu : upd s s' h (with_cnt n (n_cnt n + 1))) by (by apply upd_put).
      eapply (JH_obs P eqv good Heq HP s s' d1 _ t [] [IRelease hx] [] (<[x:=(knows (co d1) t, ∅)]> (ob (co d1)))); try done.
      + eapply (stk_set s _ t). done.
      + by eapply upd_ent.
      + by eapply upd_own.
      + intros b. rewrite (upd_cnt s s' h n _ Hn Hu). simpl. unfold plus. case_decide; lia.
      + intros z w r H. pose proof (j_wf _ _ _ _ HJ10) as W.
        apply lookup_insert_Some in H as [[_ [= <- <-]]|[_ H]]; [split; [apply (w_kn _ W)|apply closed_empty]|by eapply (w_ob _ W)].
      + intros z. simpl. destruct (decide (z = x)) as [->|Hne]; [rewrite !lookup_insert; split; [by exists h|by eexists]|].
        rewrite !lookup_insert_ne by done. apply (j_ob _ _ _ _ HJ10).
      + intros z b w r Hz Hw. simpl in Hz. destruct (decide (z = x)) as [->|Hne].
        * rewrite lookup_insert in Hz. rewrite lookup_insert in Hw. injection Hz as <-. injection Hw as <- <-. right. by eapply (made_W s d1 _ t y).
        * rewrite lookup_insert_ne in Hz by done. rewrite lookup_insert_ne in Hw by done. by left.
      + intros b. rewrite lsum_cons, lsum_nil, Nat.add_0_r. simpl. intros Hb%at_pos. subst b. right. by eapply (uses_W s d1 _ t).
      + intros z b w r Hz Hw. destruct (decide (z = x)) as [->|Hne].
        * right. unfold uses in Hux. rewrite Hw in Hux. split; [done|]. left. assert (b = hx) as -> by congruence. rewrite lsum_cons. simpl. rewrite at_eq. lia.
        * left. simpl. by rewrite !lookup_insert_ne.
      + intros b. rewrite lsum_nil. lia.
      + notin.
    - destruct (live s x) as [hx|] eqn:Ex; [|done]. destruct (live s y) as [hy|] eqn:Ey; [|done]. apply live_vars in Ey, Ex. unfold add_ref in He.
      destruct (ents s !! hx) as [n|] eqn:Hn; [|done].
      assert (Hf : cntf s hx ≠ 0%Z) by (pose proof (cntf_pos P eqv good s hx HI (cnt_var P s x hx Ex)); lia).
      destruct (JH_all P eqv good Heq HP s d (cntf s) t x HI HJ) as (HJa&Ha&_). set (d0 := all_uses t x d) in *.
      destruct (JH_all P eqv good Heq HP s d0 (cntf s) t y HI HJa) as (HJb&Hb&Hbe). set (d0' := all_uses t y d0) in *.
      destruct (JH_copy P eqv good Heq HP inc_sync s d0' (cntf s) t x hx HI HJb Ex Hf) as (HJ1&Hm&Hus&Hkn). set (d1 := ccopy inc_sync t x hx d0') in *.
      assert (Hk0 : knows (co d0) t ⊆ knows (co d0') t) by (unfold d0', all_uses, on_co; cbn [co]; rewrite (knows_learn t _ _ t); destruct (decide (t = t)); [apply union_subseteq_l|done]).
      assert (Hux : uses (co d1) x ⊆ knows (co d1) t).
      { etrans; [apply Hus|]; apply union_subseteq; split; [|done]. rewrite Hbe. etrans; [exact Ha|]. etrans; [exact Hk0|apply Hkn]. }
      assert (Huy : uses (co d1) y ⊆ knows (co d1) t) by (etrans; [apply Hus|]; apply union_subseteq; split; [etrans; [exact Hb|apply Hkn]|done]).
      pose proof (proj1 HJ1) as HJ10. destruct (decide (x = y)) as [<-|Hxy]; injection He as <-.
      + set (s' := add_log _ _). assert (Hu : upd s s' hx (with_cnt n (n_cnt n + 1))) by (by apply upd_put). rewrite <- (set_ob_id d1) at 1.
        eapply (JH_obs P eqv good Heq HP s s' d1 _ t [] [IDup hx 2] []); try done.
        * eapply (stk_set s _ t). done.
        * by eapply upd_ent.
        * by eapply upd_own.
        * intros b. rewrite (upd_cnt s s' hx n _ Hn Hu). simpl. unfold plus. case_decide; lia.
        * intros z w r. apply (w_ob _ (j_wf _ _ _ _ HJ10)).
        * apply (j_ob _ _ _ _ HJ10).
        * intros z b w r Hz Hw. by left.
        * intros b. rewrite lsum_cons, lsum_nil, Nat.add_0_r. simpl. intros Hb'%at_pos. subst b. right. by eapply (uses_W s d1 _ t).
        * intros z b w r Hz Hw. by left.
        * intros b. rewrite lsum_nil. lia.
        * notin.
      + set (s' := set_stack _ _ _). assert (Hu : upd s s' hx (with_cnt n (n_cnt n + 1))) by (by apply upd_put).
        eapply (JH_obs P eqv good Heq HP s s' d1 _ t [] [ISwap1 x y hx hy] [] (delete y (delete x (ob (co d1))))); try done.
        * by apply stk_set.
        * by eapply upd_ent.
        * by eapply upd_own.
        * intros b. rewrite (upd_cnt s s' hx n _ Hn Hu). simpl. unfold plus. case_decide; lia.
        * intros z w r H. apply lookup_delete_Some in H as [_ H]. apply lookup_delete_Some in H as [_ H]. by apply (w_ob _ (j_wf _ _ _ _ HJ10) z).
        * intros z. simpl. destruct (decide (z = y)) as [->|Hzy]; [rewrite lookup_delete, lookup_insert; split; [by intros []|by intros [? ?]]|].
          rewrite lookup_delete_ne, lookup_insert_ne by done.
          destruct (decide (z = x)) as [->|Hzx]; [rewrite lookup_delete, lookup_insert; split; [by intros []|by intros [? ?]]|].
          rewrite lookup_delete_ne, lookup_insert_ne by done. apply (j_ob _ _ _ _ HJ10).
        * intros z b w r Hz Hw. left. apply lookup_delete_Some in Hw as [Hzy Hw]. apply lookup_delete_Some in Hw as [Hzx Hw]. simpl in Hz. by rewrite !lookup_insert_ne in Hz.
        * intros b. rewrite lsum_cons, lsum_nil, Nat.add_0_r. simpl. intros Hb'. right.
          assert (b = hx ∨ b = hy) as [->| ->] by (unfold at_ in Hb'; repeat case_decide; auto; lia); by eapply (uses_W s d1 _ t).
        * intros z b w r Hz Hw. destruct (decide (z = y)) as [->|Hzy].
          { right. unfold uses in Huy. rewrite Hw in Huy. split; [done|]. left. assert (b = hy) as -> by congruence. rewrite lsum_cons. simpl. rewrite (at_eq hy). lia. }
          destruct (decide (z = x)) as [->|Hzx].
          { right. unfold uses in Hux. rewrite Hw in Hux. split; [done|]. left. assert (b = hx) as -> by congruence. rewrite lsum_cons. simpl. rewrite (at_eq hx). lia. }
          left. simpl. by rewrite !lookup_insert_ne, !lookup_delete_ne.
        * intros b. rewrite lsum_nil. lia.
        * notin.
    - destruct (live s x) as [h|] eqn:Ex; [|done]. apply live_vars in Ex. injection He as <-. set (s' := add_log _ _).
      destruct (JH_all P eqv good Heq HP s d (cntf s) t x HI HJ) as (HJ1&Ha&_). set (d1 := all_uses t x d) in *. pose proof (proj1 HJ1) as HJ10.
      eapply (JH_obs P eqv good Heq HP s s' d1 _ t [] [IRelease h] [] (delete x (ob (co d1)))); try done.
      + eapply (stk_set s _ t). done.
      + by apply ents_ent.
      + intros z w r H. apply lookup_delete_Some in H as [_ H]. by apply (w_ob _ (j_wf _ _ _ _ HJ10) z).
      + intros z. simpl. destruct (decide (z = x)) as [->|Hzx]; [rewrite !lookup_delete; split; [by intros []|by intros [? ?]]|].
        rewrite !lookup_delete_ne by done. apply (j_ob _ _ _ _ HJ10).
      + intros z b w r Hz Hw. left. apply lookup_delete_Some in Hw as [_ Hw]. simpl in Hz. apply lookup_delete_Some in Hz as [_ Hz]. done.
      + intros b. rewrite lsum_cons, lsum_nil, Nat.add_0_r. simpl. intros Hb%at_pos. subst b. right. by eapply (uses_W s d1 _ t).
      + intros z b w r Hz Hw. destruct (decide (z = x)) as [->|Hne].
        * right. unfold uses in Ha. rewrite Hw in Ha. split; [done|]. left. assert (b = h) as -> by congruence. rewrite lsum_cons. simpl. rewrite at_eq. lia.
        * left. simpl. by rewrite !lookup_delete_ne.
      + intros b. rewrite lsum_nil. lia.
      + notin.
    - destruct (live s x) as [h|] eqn:Ex; [|done]. apply live_vars in Ex. unfold add_ref in He. destruct (ents s !! h) as [n|] eqn:Hn; [|done]. injection He as <-. set (s' := set_stack _ _ _).
      assert (Hf : cntf s h ≠ 0%Z) by (pose proof (cntf_pos P eqv good s h HI (cnt_var P s x h Ex)); lia).
      destruct (JH_copy P eqv good Heq HP inc_sync s d (cntf s) t x h HI HJ Ex Hf) as (HJ1&Hm&_). set (d1 := ccopy inc_sync t x h d) in *.
      pose proof (proj1 HJ1) as HJ10. assert (Hu : upd s s' h (with_cnt n (n_cnt n + 1))) by (by apply upd_put). rewrite <- (set_ob_id d1) at 1.
      eapply (JH_obs P eqv good Heq HP s s' d1 _ t [] [IRelease h; IRead x h] []); try done.
      + by apply stk_set.
      + by eapply upd_ent.
      + by eapply upd_own.
      + intros b. rewrite (upd_cnt s s' h n _ Hn Hu). simpl. unfold plus. case_decide; lia.
      + intros z w r. apply (w_ob _ (j_wf _ _ _ _ HJ10)).
      + apply (j_ob _ _ _ _ HJ10).
      + intros z b w r Hz Hw. by left.
      + intros b. rewrite !lsum_cons, lsum_nil. simpl. rewrite Nat.add_0_r. intros Hb%at_pos. subst b. right. by eapply (made_W s d1 _ t).
      + intros z b w r Hz Hw. by left.
      + intros b. rewrite lsum_nil. lia.
      + notin.
  Qed.

  Lemma JH_todo s d X : JH s d (cntf s) → JH (set_todo X s) d (cntf (set_todo X s)).
  Proof.
    intros HJ. rewrite <- (set_ob_id d). pose proof (proj1 HJ) as HJ0.
    eapply (JH_obs P eqv good Heq HP s (set_todo X s) d (cntf s) 0 [] [] (stack s 0)); try done.
    - intros u. case_decide; by subst.
    - by apply ents_ent.
    - intros z w r. apply (w_ob _ (j_wf _ _ _ _ HJ0)).
    - apply (j_ob _ _ _ _ HJ0).
    - intros z b w r Hz Hw. by left.
    - intros b. rewrite lsum_nil. lia.
    - intros z b w r Hz Hw. by left.
    - intros b. rewrite lsum_nil. lia.
    - notin.
  Qed.

  (** ** The collector's load: a 0 is current *)
  Lemma load_zero s d t h (i : nat) d' n : JH s d (cntf s) → ents s !! h = Some n → n_own n = Some t → load true t h i d = Some (0%Z, d') →
    i = 0 ∧ n_cnt n = 0%Z ∧ ∃ e l, hist d h = (e, 0%Z, cset (co d) h) :: l.
  Proof.
    intros [HJ HH] Hn Ho Hl. destruct (HH h) as [(e0&l&Ht) Hc Hold]; [by eexists|]. unfold cntf in Ht. rewrite Hn in Ht.
    unfold load in Hl. destruct (hist d h !! i) as [[[e v] E]|] eqn:Hi; [|done]. destruct (forallb _ _) eqn:Hf; [|done]. injection Hl as -> _.
    destruct i as [|i].
    - rewrite Ht in Hi. simpl in Hi. injection Hi as -> H0 _. rewrite H0 in Ht. eauto.
    - exfalso. destruct (Hold i e E Hi) as (j&w&Hle&Hj&Hin). rewrite forallb_forall in Hf.
      assert (Hin' : In w (take (S i) (hist d h))). { apply elem_of_list_In, elem_of_list_lookup. exists j. rewrite lookup_take by lia. done. }
      specialize (Hf w Hin'). apply bool_decide_eq_true in Hf. rewrite (vis_own s _ _ h n t Hn Ho) in Hin. done.
  Qed.

  Definition G (sd : state * chb) : Prop := Inv sd.1 ∧ JH sd.1 sd.2 (cntf sd.1).
  Lemma cstep_G sd l : G sd → ∃ sd', cstep sd l = Some sd' ∧ G sd'.
  Proof.
    destruct sd as [s d]. intros [HI HJ]. simpl in HI, HJ. destruct l as [l|i|t h|t u|t x path]; cbn [ConHb.cstep].
    - destruct (tests s l) eqn:Et; [by eexists|]. pose proof (step_inv P eqv good Heq HP s l HI) as Hs.
      destruct (step P eqv s l) as [s'| |] eqn:Es; simpl in Hs; [|by eexists|done]. eexists. split; [done|]. split; [done|]. simpl.
      destruct l as [t o|t thr| |h|]; cbn [clab]; cbn [step] in Es.
      + case_decide; [done|]. destruct (stack s t) eqn:Est; [|done]. by eapply start_JH.
      + destruct (stack s t) as [|i rest] eqn:Est; [done|]. eapply (exec_JH P eqv good Heq HP); try done. simpl in Et. rewrite Est in Et. by destruct i.
      + destruct (todo s); [done|]. injection Es as <-. by apply JH_todo.
      + destruct (todo s) as [X|]; [|done]. destruct (stack s gc_tid) eqn:Est; [|done]. destruct (ents s !! h) as [[r z [o|]]|] eqn:Hn; [done| |done]. injection Es as <-.
        eapply (JH_enter P eqv good Heq HP s _ d gc_tid h _ [] [] [ITest h]); try done; [by apply stk_set|notin].
      + destruct (todo s) as [X|]; [|done]. destruct (stack s gc_tid) eqn:Est; [|done]. case_decide; [|done]. injection Es as <-. by apply JH_todo.
    - destruct (stack s gc_tid) as [|i0 rest] eqn:Est; [by eexists|].
      assert (Htop : i0 ∈ stack s gc_tid) by (rewrite Est; by left).
      destruct i0 as [x p ys got|x p r|x h p ks k|x h ks k|x h ks k|h|x h k|x|x h|x y hx hy|x y hx hy|x y hx hy|h j|h|h|h]; try (by eexists).
      destruct (accessed P eqv good s gc_tid _ h HI Htop) as (n&Hn&Hown); [simpl; rewrite at_eq; lia|]. rewrite Hn.
      destruct (load true gc_tid h i d) as [[v d']|] eqn:Hl; [|by eexists]. eexists. split; [done|].
      assert (HJ1 : JH s d' (cntf s) ∧ (v = 0%Z → cset (co d') h ⊆ knows (co d') gc_tid)).
      { pose proof (λ d', load_zero s d gc_tid h i d' n HJ Hn Hown) as Hz. unfold load in Hl, Hz. destruct (hist d h !! i) as [[[e v'] E]|] eqn:Hi; [|done].
        destruct (forallb _ _) eqn:Hf; [|done]. injection Hl as -> <-.
        assert (HcE : closed (co d) E). { destruct HJ as [_ HH]. destruct (HH h) as [_ Hc _]; [by eexists|]. eapply (Hc (e, v, E)). by eapply elem_of_list_lookup_2. }
        pose proof (JH_load P eqv good Heq HP s d (cntf s) gc_tid h n HI HJ Hn Hown) as HJ1. split.
        - apply (JH_learn P eqv good Heq HP s _ (cntf s) gc_tid E HI HJ1). eapply closed_past; [|done]. intros e' D. apply past_emit, HJ.
        - intros ->. destruct (Hz _ eq_refl) as (->&_&e1&l&Ht). rewrite Ht in Hi. simpl in Hi. injection Hi as -> <-.
          unfold on_co. cbn [co]. rewrite (knows_learn gc_tid _ _ gc_tid), decide_True by done. apply union_subseteq_r. }
      destruct HJ1 as [HJ1 Hz]. assert (Hz2 : v = 0%Z → n_cnt n = 0%Z) by (intros ->; destruct (load_zero s d gc_tid h i d' n HJ Hn Hown Hl) as (_&?&_); done).
      split; simpl.
      + destruct (i_gc _ _ _ _ HI gc_tid _ Htop) as [Hg _]. destruct (i_cnt _ _ _ _ HI h n Hn) as [Hc _].
        eapply (inv_move P eqv good s _ gc_tid [ITest h] [_] rest HI Est); try done; try (intros; by case_decide).
        intros ? ->%elem_of_list_singleton. case_decide as E; (split; [|split; [done|by left]]); simpl; [|done]. specialize (Hz2 E). lia.
      + eapply (JH_head P s _ d' (cntf s) gc_tid _ rest [_]); try done.
        * by apply stk_set.
        * by apply ents_ent.
        * intros b. rewrite lsum_cons, lsum_nil. case_decide; simpl; lia.
        * intros b. simpl. lia.
        * intros b. rewrite elem_of_list_singleton. case_decide as E; [intros [= ->]; by apply Hz|done].
    - destruct (stack s t) as [|[] ?] eqn:Est; try (by eexists). destruct (ents s !! h) as [[r1 z1 [o1|]]|] eqn:Hn; [by eexists| |by eexists].
      eexists. split; [done|]. split; [done|]. simpl. pose proof (proj1 HJ) as HJ0.
      set (d' := leave t h (see t h Read (enter t h d))).
      assert (HJ' : J s (co d') (lset d')).
      { eapply (J_probe P eqv good Heq HP s (co d) (lset d) _ t h _ HI HJ0 Hn eq_refl). intros b. unfold d'. rewrite lset_leave.
        case_decide; [|done]. f_equal. unfold see, enter, on_co. cbn [co]. rewrite (knows_emit t _ _ t), decide_True, (knows_learn t _ _ t), decide_True by done. done. }
      assert (Hk : ∀ u, knows (co d) u ⊆ knows (co d') u).
      { intros u. unfold d', leave, see, enter, on_co. cbn [co]. rewrite knows_emit, !knows_learn. repeat case_decide; subst; set_solver. }
      eapply JH_to; [done|done| |].
      + intros e D HD. unfold d', leave, see, enter, on_co. cbn [co]. apply past_emit; [|done]. apply learn_wf; [apply HJ0|apply (j_lk _ _ _ _ HJ0)].
      + intros b Hb. split_and!; try done. unfold vis. destruct (ents s !! b) as [m|]; [|done]. destruct (n_own m); [apply Hk|].
        unfold d'. rewrite lset_leave. case_decide; [subst|done]. change (lset d h ⊆ lset d h ∪ knows (co (see t h Read (enter t h d))) t). set_solver.
    - eexists. split; [done|]. split; [done|]. simpl. apply (JH_learn P eqv good Heq HP); [done|done|]. apply (w_kn _ (j_wf _ _ _ _ (proj1 HJ))).
    - destruct (stack s t) eqn:Est; [|by eexists]. destruct (live s x) as [h|] eqn:Ex; [|by eexists]. apply live_vars in Ex.
      eexists. split; [done|]. split; [done|]. simpl. destruct (JH_use P eqv good Heq HP s d (cntf s) t x HI HJ) as [HJ1 Hm].
      eapply (JH_walk P eqv good Heq HP inc_sync dec_acq s t x h path HI Ex h _ (cntf s) HJ1 Hm); [constructor|]. intros b. by apply (cntf_pos P eqv good).
  Qed.

  Lemma cinit_G : G (init, cinit).
  Proof.
    split; [apply init_inv|].
    assert (Hs : ∀ t, stack (@init K A R) t = []) by (intros t; unfold stack; simpl; by rewrite lookup_empty).
    assert (Hk : ∀ t, knows hinit t = ∅) by (intros t; unfold knows; simpl; by rewrite lookup_empty).
    assert (W : hwf hinit) by (split; simpl; intros *; rewrite ?lookup_empty, ?Hk, ?elem_of_nil; try done; by apply closed_empty).
    split; [|intros h [n Hn]; simpl in Hn; by rewrite lookup_empty in Hn].
    assert (Hn : ∀ h, nd hinit !! h = None) by (intros h; apply lookup_empty).
    assert (Ht : ∀ a, a ∉ tr hinit) by (intros a; apply not_elem_of_nil).
    assert (He : ∀ h, ents (@init K A R) !! h = None) by (intros h; apply lookup_empty).
    assert (Hv : ∀ x, vars (@init K A R) !! x = None) by (intros x; apply lookup_empty).
    split; cbn [fst snd co cinit].
    - done.
    - intros h. unfold lset. simpl. rewrite lookup_empty. apply closed_empty.
    - intros h. rewrite Hn, He. split; by intros [].
    - intros h j E. by rewrite Hn.
    - intros h h' j E E'. by rewrite Hn.
    - intros a j Ha. by destruct (Ht a).
    - intros x. rewrite Hv. simpl. rewrite lookup_empty. split; [by intros []|by intros [? ?]].
    - intros h n t. by rewrite He.
    - intros h j F a. by rewrite Hn.
    - intros x h w r. by rewrite Hv.
    - intros t i h Hi. rewrite Hs, elem_of_nil in Hi. done.
    - intros b n h j E D. by rewrite He.
    - intros h j E n a. by rewrite Hn.
    - intros h j E a. by rewrite Hn.
    - intros t h j E. by rewrite Hn.
  Qed.
  Lemma crun_G sd ls : G sd → ∃ sd', crun sd ls = Some sd' ∧ G sd'.
  Proof.
    revert sd. induction ls as [|l ls IH]; intros sd HG; [by exists sd|]. destruct (cstep_G sd l HG) as (sd1&E&HG1).
    cbn [ConHb.crun]. rewrite E. by apply IH.
  Qed.
End Run.
