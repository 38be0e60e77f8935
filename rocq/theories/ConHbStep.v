(** The invariant of [ConHbInv.v] when the machine of [Concurrent.v] moves. *)
From Verif Require Export ConHbInv.

Section Step.
  Context {K A R V : Type}.
  Context (P : Core.policy K A R V) (eqv : K → K → bool) (good : R → Prop).
  Context (Heq : equivalence eqv) (HP : policy_ok eqv good P).

  Notation state := (state (K:=K) (A:=A) (R:=R)).
  Notation instr := (instr (K:=K) (A:=A) (R:=R)).
  Notation node := (node (R:=R)).
  Notation Inv := (Inv P eqv good).
  Notation own := (own P).
  Notation cnt := (cnt P).
  Notation kids n := (p_kids P (n_rep n)).
  Notation cov := (cov P).
  Notation J := (J P).
  Notation ent_ok := (ent_ok P).
  Implicit Types (s : state) (c : hb) (n : node) (h b : addr) (i : instr) (L : addr → gset nat).

  Definition stk_is s s' t (new : list instr) : Prop := ∀ u, stack s' u = if decide (u = t) then new else stack s u.
  Lemma stk_set s s1 t new : stacks s1 = stacks s → stk_is s (set_stack t new s1) t new.
  Proof. intros E u. unfold stack, set_stack; simpl. rewrite E. case_decide; subst; [by rewrite lookup_insert|by rewrite lookup_insert_ne]. Qed.
  Definition own_ok s s' : Prop := ∀ h, n_own <$> ents s' !! h = n_own <$> ents s !! h.
  Lemma vis_same s s' c L h : own_ok s s' → vis s' c L h = vis s c L h.
  Proof. intros H. specialize (H h). unfold vis. destruct (ents s !! h) as [m|], (ents s' !! h) as [m'|]; simpl in *; try done. by injection H as ->. Qed.
  Lemma own_in s s' c L : J s c L → own_ok s s' → ∀ h n u, ents s' !! h = Some n → n_own n = Some u → L h ⊆ knows c u.
  Proof.
    intros HJ H h n u Hn Ho. specialize (H h). rewrite Hn in H. destruct (ents s !! h) as [m|] eqn:Hm; [|done]. injection H as H.
    eapply (j_in _ _ _ _ HJ); [done|congruence].
  Qed.

  (** no access is made *)
  Lemma J_st s s' c c' L L' t : J s c L → hwf c' → (∀ h, closed c (L' h)) →
    (∀ u, knows c' u = knows c u) → nd c' = nd c → past c' = past c → tr c' = tr c → nxt c' = nxt c →
    (∀ h, vis s c L h ⊆ vis s' c' L' h) → (∀ u, u ≠ t → stack s' u = stack s u) → ent_ok s s' →
    (∀ x, is_Some (ob c' !! x) ↔ ∃ h, vars s' !! x = Some (Some h)) →
    (∀ h n u, ents s' !! h = Some n → n_own n = Some u → L' h ⊆ knows c u) →
    (∀ x h w r, vars s' !! x = Some (Some h) → ob c' !! x = Some (w, r) →
       (∃ w0 r0, vars s !! x = Some (Some h) ∧ ob c !! x = Some (w0, r0) ∧ w0 ⊆ w) ∨ knowsW c w h) →
    (∀ i h, i ∈ stack s' t → 0 < own h i → (∃ i0, i0 ∈ stack s t ∧ 0 < own h i0) ∨ knowsW c (knows c t) h) →
    (∀ x h w r e, vars s !! x = Some (Some h) → ob c !! x = Some (w, r) → e ∈ w ∪ r → cov s' c' L' h e) →
    (∀ i h e, i ∈ stack s t → 0 < own h i → e ∈ knows c t → (∃ i', i' ∈ stack s' t ∧ 0 < own h i') ∨ cov s' c' L' h e) →
    (∀ h, IErase h ∈ stack s' t → IErase h ∈ stack s t ∨ cset c h ⊆ knows c t) →
    J s' c' L'.
  Proof.
    intros HJ W HL Hk Hnd Hpast Htr Hnxt Hvis Hoth Hent Hob Hin Oobj Othr Cobj Cthr Hz.
    eapply (J_keep P s s' c c' L L' t []); try done.
    - intros h. eapply closed_past; [|apply HL]. by rewrite Hpast.
    - by rewrite Hk.
    - by rewrite Hpast.
    - by rewrite Hnxt.
    - intros h. rewrite Hnd. destruct (nd c !! h) as [[??]|]; auto.
    - intros h n u Hn Ho. rewrite Hk. by eapply Hin.
    - intros a j Ha. by apply elem_of_nil in Ha.
    - intros a h j E Ha. by apply elem_of_nil in Ha.
    - intros u i h Hi Ho. rewrite Hk. destruct (decide (u = t)) as [->|Hu]; [by eapply Othr|]. rewrite Hoth in Hi by done. left. eauto.
    - intros u i h e Hi Ho He. destruct (decide (u = t)) as [->|Hu].
      + destruct (Cthr i h e Hi Ho He) as [(i'&?&?)|?]; [|done]. eapply cov_t; [done|done|]. by rewrite Hk.
      + eapply cov_t; [by rewrite Hoth|done|by rewrite Hk].
    - intros u h j E Hi Hj. rewrite Hnd in Hj. rewrite Hk. destruct (decide (u = t)) as [->|Hu].
      + destruct (Hz h Hi) as [?|Hs]; [by eapply (j_zero _ _ _ _ HJ)|]. unfold cset in Hs. by rewrite Hj in Hs.
      + rewrite Hoth in Hi by done. by eapply (j_zero _ _ _ _ HJ).
  Qed.

  (** one instruction of a thread is replaced *)
  Lemma J_head' s s' c L L' t i rest pre : J s c L → stack s t = i :: rest → vars s' = vars s → stk_is s s' t (pre ++ rest) → ent_ok s s' →
    (∀ h, closed c (L' h)) → (∀ h, vis s c L h ⊆ vis s' c L' h) →
    (∀ h n u, ents s' !! h = Some n → n_own n = Some u → L' h ⊆ knows c u) →
    (∀ h, 0 < lsum (own h) pre → 0 < own h i ∨ knowsW c (knows c t) h) →
    (∀ h, 0 < own h i → 0 < lsum (own h) pre ∨ ∀ e, e ∈ knows c t → cov s' c L' h e) →
    (∀ h, IErase h ∈ pre → cset c h ⊆ knows c t) →
    J s' c L'.
  Proof.
    intros HJ Hst Hv Hsk Hent HL Hvis Hin Ht Hc Hz. pose proof (Hsk t) as Hskt. rewrite decide_True in Hskt by done.
    eapply (J_st s s' c c L L' t); try done.
    - apply HJ.
    - intros u Hu. by rewrite Hsk, decide_False.
    - intros x. rewrite Hv. apply (j_ob _ _ _ _ HJ).
    - intros x h w r Hx Hw. left. rewrite Hv in Hx. eauto.
    - intros i' h Hi Ho. rewrite Hskt, elem_of_app in Hi. destruct Hi as [Hi|Hi].
      + destruct (Ht h) as [?|?]; [apply lsum_pos; eauto| |by right]. left. exists i. rewrite Hst. split; [by left|done].
      + left. exists i'. rewrite Hst. split; [by right|done].
    - intros x h w r e Hx Hw He. eapply cov_o; [by rewrite Hv|done|done].
    - intros i' h e Hi Ho He. rewrite Hst in Hi. apply elem_of_cons in Hi as [->|Hi].
      + destruct (Hc h Ho) as [Hp|Hp]; [|right; by apply Hp]. apply lsum_pos in Hp as (i''&?&?). left. exists i''. rewrite Hskt, elem_of_app. auto.
      + left. exists i'. rewrite Hskt, elem_of_app. auto.
    - intros h Hi. rewrite Hskt, elem_of_app in Hi. destruct Hi as [Hi|Hi]; [right; by apply Hz|]. left. rewrite Hst. by right.
  Qed.
  Lemma J_head s s' c L t i rest pre : J s c L → stack s t = i :: rest → vars s' = vars s → stk_is s s' t (pre ++ rest) → ent_ok s s' → own_ok s s' →
    (∀ h, 0 < lsum (own h) pre → 0 < own h i ∨ knowsW c (knows c t) h) →
    (∀ h, 0 < own h i → 0 < lsum (own h) pre ∨ ∀ e, e ∈ knows c t → cov s' c L h e) →
    (∀ h, IErase h ∈ pre → cset c h ⊆ knows c t) →
    J s' c L.
  Proof.
    intros HJ Hst Hv Hsk Hent Hown Ht Hc Hz. eapply (J_head' s s' c L L t i rest pre); try done.
    - apply (j_lk _ _ _ _ HJ).
    - intros h. by rewrite (vis_same s s').
    - by apply (own_in s s').
  Qed.

  (** access to an element is got, given up *)
  Lemma J_get s s' c L t h n new : J s c L → closed c (L h) → ents s !! h = Some n → n_own n = None → vars s' = vars s →
    (∃ old rest pre, stack s t = old ++ rest ∧ new = pre ++ rest ∧ (∀ b, lsum (own b) pre = lsum (own b) old) ∧ ∀ b, IErase b ∉ pre) →
    stk_is s s' t new → (∀ b, ents s' !! b = if decide (b = h) then Some (with_own n (Some t)) else ents s !! b) →
    L h ⊆ knows c t → J s' c L.
  Proof.
    intros HJ HL Hn Ho Hv (old&rest&pre&Hst&->&Hsum&Hne) Hsk He Hin. pose proof (Hsk t) as Hskt. rewrite decide_True in Hskt by done.
    eapply (J_st s s' c c L L t); try done.
    - apply HJ.
    - apply (j_lk _ _ _ _ HJ).
    - intros b. unfold vis. rewrite He. case_decide as Hb; [|done]. subst. rewrite Hn, Ho. done.
    - intros u Hu. by rewrite Hsk, decide_False.
    - intros b. rewrite He. case_decide; [subst; rewrite Hn|destruct (ents s !! b)]; done.
    - intros x. rewrite Hv. apply (j_ob _ _ _ _ HJ).
    - intros b m u Hb Hu. rewrite He in Hb. case_decide as Hbh; [subst; injection Hb as <-; simpl in Hu; by injection Hu as <-|]. by eapply (j_in _ _ _ _ HJ).
    - intros x b w r Hx Hw. left. rewrite Hv in Hx. eauto.
    - intros i b Hi Hob. left. rewrite Hskt, elem_of_app in Hi. rewrite Hst. destruct Hi as [Hi|Hi]; [|exists i; rewrite elem_of_app; auto].
      assert (Hp : 0 < lsum (own b) old) by (rewrite <- Hsum; apply lsum_pos; eauto). apply lsum_pos in Hp as (i0&?&?). exists i0. rewrite elem_of_app. auto.
    - intros x b w r e Hx Hw Hin'. eapply cov_o; [by rewrite Hv|done|done].
    - intros i b e Hi Hob Hin'. left. rewrite Hst, elem_of_app in Hi. rewrite Hskt. destruct Hi as [Hi|Hi]; [|exists i; rewrite elem_of_app; auto].
      assert (Hp : 0 < lsum (own b) pre) by (rewrite Hsum; apply lsum_pos; eauto). apply lsum_pos in Hp as (i0&?&?). exists i0. rewrite elem_of_app. auto.
    - intros b Hi. left. rewrite Hskt, elem_of_app in Hi. rewrite Hst, elem_of_app. destruct Hi as [Hi|Hi]; [by apply Hne in Hi|auto].
  Qed.
  Lemma J_leave s s' c L L' t i rest pre h n : J s c L → stack s t = i :: rest → ents s !! h = Some n → n_own n = Some t → vars s' = vars s →
    stk_is s s' t (pre ++ rest) → (∀ b, ents s' !! b = if decide (b = h) then Some (with_own n None) else ents s !! b) →
    (∀ b, L' b = if decide (b = h) then L h ∪ knows c t else L b) →
    (∀ b, lsum (own b) pre = own b i) → (∀ b, IErase b ∉ pre) → J s' c L'.
  Proof.
    intros HJ Hst Hn Ho Hv Hsk He HL Hsum Hne.
    assert (Hent : ent_ok s s') by (intros b; rewrite He; case_decide; [subst; rewrite Hn|destruct (ents s !! b)]; done).
    eapply (J_head' s s' c L L' t i rest pre); try done.
    - intros b. rewrite HL. case_decide; [|apply (j_lk _ _ _ _ HJ)]. apply closed_union; [apply (j_lk _ _ _ _ HJ)|apply (w_kn _ (j_wf _ _ _ _ HJ))].
    - intros b. unfold vis. rewrite He, HL. case_decide; [|done]. subst. rewrite Hn, Ho. simpl. set_solver.
    - intros b m u Hb Hu. rewrite He in Hb. rewrite HL. case_decide as Hbh; [subst; by injection Hb as <-|]. by eapply (j_in _ _ _ _ HJ).
    - intros b. rewrite Hsum. auto.
    - intros b. rewrite Hsum. auto.
    - intros b Hb. by apply Hne in Hb.
  Qed.

  (** a search passes by an element *)
  Lemma J_probe s c L L' t h n : Inv s → J s c L → ents s !! h = Some n → n_own n = None →
    (∀ b, L' b = if decide (b = h) then L h ∪ (knows c t ∪ L h ∪ {[nxt c]}) else L b) →
    J s (emit t [(MRep (idn (learn t (L h) c) h), Read)] (learn t (L h) c)) L'.
  Proof.
    intros HI HJ Hn Ho HL. pose proof (J_learn P eqv good Heq HP s c L t (L h) HI HJ (j_lk _ _ _ _ HJ h)) as HJ1. set (c1 := learn t (L h) c) in *.
    assert (Hk1 : knows c1 t = knows c t ∪ L h) by (unfold c1; by rewrite knows_learn, decide_True).
    destruct (proj2 (j_nd _ _ _ _ HJ1 h)) as [[j E] Hj]; [eauto|]. assert (Hid : idn c1 h = j) by (unfold idn; by rewrite Hj). rewrite Hid.
    pose proof (λ c, vis_free s c L h n Hn Ho) as Hvf. pose proof (λ c, vis_free s c L' h n Hn Ho) as Hvf'.
    set (c' := emit t [(MRep j, Read)] c1). assert (Hk : ∀ u, knows c1 u ⊆ knows c' u) by (intros u; unfold c'; rewrite knows_emit; case_decide; subst; set_solver).
    assert (Hp : ∀ e D, past c1 !! e = Some D → past c' !! e = Some D) by (intros e D; apply past_emit; apply HJ1).
    assert (W : hwf c').
    { apply emit_wf; [apply HJ1|]. intros a l Ha ->%elem_of_list_singleton (Hl&Hr&_). rewrite Hk1. apply elem_of_union_r.
      rewrite <- (Hvf c1). eapply (j_wr _ _ _ _ HJ1); [done|done|]. left. split; [done|]. intros ?. by apply Hr. }
    assert (Hvis : ∀ b, vis s c1 L b ⊆ vis s c' L' b).
    { intros b. unfold vis. destruct (ents s !! b) as [m|] eqn:Hm; [|done]. destruct (n_own m); [apply Hk|]. rewrite HL. case_decide; subst; set_solver. }
    assert (Hnew : nxt c1 ∈ vis s c' L' h) by (rewrite Hvf', HL, decide_True by done; simpl; set_solver).
    eapply (J_keep P s s c1 c' L L' t [Acc (nxt c1) t (MRep j) Read]); try done.
    - intros b. rewrite HL. case_decide; [|eapply closed_past; [done|apply (j_lk _ _ _ _ HJ1)]].
      apply closed_union; [eapply closed_past; [done|apply (j_lk _ _ _ _ HJ1)]|].
      assert (knows c t ∪ L h ∪ {[nxt c]} = knows c' t) as -> by (unfold c'; rewrite knows_emit, decide_True by done; by rewrite Hk1). apply (w_kn _ W).
    - intros u Hu. unfold c'. by rewrite knows_emit, decide_False.
    - simpl. lia.
    - intros b. simpl. destruct (nd c !! b) as [[??]|]; auto.
    - apply ent_refl.
    - apply (j_ob _ _ _ _ HJ1).
    - intros b m u Hm Hu. rewrite HL. case_decide; [subst; congruence|]. etrans; [by eapply (j_in _ _ _ _ HJ1)|apply Hk].
    - intros a j0 ->%elem_of_list_singleton Hon. unfold on in Hon. simpl in Hon. exists h, E. naive_solver.
    - intros a b j0 E0 ->%elem_of_list_singleton Hj0 Hon. assert (j0 = j) as -> by (unfold on in Hon; simpl in Hon; naive_solver).
      assert (b = h) as -> by (by eapply (j_inj _ _ _ _ HJ1)). split_and!; [|done|by apply cov_v].
      unfold wr. simpl. naive_solver.
    - intros x b w r Hx Hw. left. eauto.
    - intros u i b Hi Hob. left. eauto.
    - intros x b w r e Hx Hw He. by eapply cov_o.
    - intros u i b e Hi Hob He. eapply cov_t; [done|done|]. by apply Hk.
    - intros u b j0 E0 Hi Hj0. etrans; [by eapply (j_zero _ _ _ _ HJ1)|apply Hk].
  Qed.

  (** ** An entry is destroyed *)
  Lemma cov_cnt0 s c L h e : cnt s h = 0 → cov s c L h e → e ∈ cset c h ∨ e ∈ vis s c L h.
  Proof.
    intros H0 H. destruct H as [h j E e Hj He|h e He|h x w r e Hx _ _|h t i e Hi Ho _|h b n e Hb Hk _].
    - left. unfold cset. by rewrite Hj.
    - by right.
    - exfalso. by eapply no_cnt_var.
    - exfalso. pose proof (no_cnt_own P _ _ _ _ H0 Hi). lia.
    - exfalso. by eapply no_cnt_kid.
  Qed.
  Lemma J_destroy s s' c L L' t h n : J s c L → ents s !! h = Some n → n_own n = Some t → cnt s h = 0 → IErase h ∈ stack s t →
    vars s' = vars s → (∀ u, u ≠ t → stack s' u = stack s u) →
    (∀ b, ents s' !! b = if decide (b = h) then None else ents s !! b) →
    (∀ b, L' b = if decide (b = h) then ∅ else L b) →
    (∀ i b, i ∈ stack s' t → 0 < own b i → (∃ i0, i0 ∈ stack s t ∧ 0 < own b i0) ∨ b ∈ kids n) →
    (∀ i b, i ∈ stack s t → 0 < own b i → ∃ i', i' ∈ stack s' t ∧ 0 < own b i') →
    (∀ b, b ∈ kids n → ∃ i', i' ∈ stack s' t ∧ 0 < own b i') →
    (∀ b, IErase b ∈ stack s' t → IErase b ∈ stack s t) →
    J s' (let c1 := emit t [(MRep (idn c h), Write); (MRef (idn c h), Write)] c in set_nd (delete h (nd c1)) c1) L'.
  Proof.
    intros HJ Hn Hown H0 Her Hvars Hoth Hent HL Othr Cthr Ckid Hz.
    destruct (proj2 (j_nd _ _ _ _ HJ h)) as [[j E] Hj]; [by eexists|]. assert (Hid : idn c h = j) by (unfold idn; by rewrite Hj). rewrite Hid.
    pose proof (j_wf _ _ _ _ HJ) as W. pose proof (vis_own s c L h n t Hn Hown) as Hvt.
    assert (Hcs : cset c h ⊆ knows c t) by (unfold cset; rewrite Hj; by eapply (j_zero _ _ _ _ HJ)).
    assert (Hcv : ∀ e, cov s c L h e → e ∈ knows c t).
    { intros e Hc. apply cov_cnt0 in Hc as [?|?]; [by apply Hcs|by rewrite <- Hvt|done]. }
    assert (Hall : ∀ a, a ∈ tr c → on j a → a_ev a ∈ knows c t) by (intros a Ha Hon; eapply Hcv, (j_cov _ _ _ _ HJ); done).
    set (c1 := emit t _ c). assert (W1 : hwf c1).
    { apply emit_wf; [done|]. intros a l Ha Hl (Hloc&_). rewrite !elem_of_cons, elem_of_nil in Hl.
      destruct Hl as [->|[->|[]]]; simpl in Hloc; (apply Hall; [done|unfold on; auto]). }
    change (J s' (set_nd (delete h (nd c1)) c1) L'). set (c' := set_nd (delete h (nd c1)) c1). assert (W' : hwf c').
    { apply set_nd_wf; [done|]. intros b i F Hb. apply lookup_delete_Some in Hb as [_ Hb]. by apply (w_nd _ W1 b i F). }
    assert (Hk : ∀ u, knows c' u = if decide (u = t) then knows c t ∪ {[nxt c]} else knows c u) by (intros u; apply knows_emit).
    assert (Hkm : ∀ u, knows c u ⊆ knows c' u) by (intros u; rewrite Hk; case_decide; subst; set_solver).
    assert (Hp : ∀ e D, past c !! e = Some D → past c' !! e = Some D) by (intros e D; by apply past_emit).
    assert (Htr : ∀ a, a ∈ tr c' → (a_ev a = nxt c ∧ ∀ j', on j' a → j' = j) ∨ a ∈ tr c).
    { intros a Ha. unfold c' in Ha. cbn in Ha. rewrite !elem_of_cons in Ha.
      destruct Ha as [->|[->|Ha]]; [left; split; [done|]; unfold on; simpl; naive_solver..|by right]. }
    assert (Hnd : ∀ b j' F, nd c' !! b = Some (j', F) → b ≠ h ∧ j' ≠ j ∧ nd c !! b = Some (j', F)).
    { intros b j' F Hb. unfold c' in Hb. simpl in Hb. apply lookup_delete_Some in Hb as [Hne Hb]. split_and!; [done| |done].
      intros ->. by apply Hne, (j_inj _ _ _ _ HJ _ _ _ _ _ Hj Hb). }
    assert (Hold : ∀ b j' F a, nd c' !! b = Some (j', F) → a ∈ tr c' → on j' a → nd c !! b = Some (j', F) ∧ a ∈ tr c).
    { intros b j' F a Hb Ha Hon. destruct (Hnd _ _ _ Hb) as (_&Hne&Hb'). destruct (Htr a Ha) as [[_ Hj']|]; [|done]. by specialize (Hj' _ Hon). }
    assert (HW : ∀ b (F F' : gset nat), knowsW c F b → F ⊆ F' → knowsW c' F' b).
    { intros b F F' HF' Hs j' G a Hb Ha Hw. destruct (Hold b j' G a Hb Ha) as [??]; [destruct Hw as [[? _]|[? _]]; unfold on; auto|]. eapply Hs, HF'; eauto. }
    assert (He0 : ∀ b m, ents s' !! b = Some m → b ≠ h ∧ ents s !! b = Some m) by (intros b m; rewrite Hent; case_decide; done).
    assert (Hvis : ∀ b, b ≠ h → vis s c L b ⊆ vis s' c' L' b).
    { intros b Hb. unfold vis. rewrite Hent, HL, !decide_False by done. destruct (ents s !! b) as [m|]; [|done]. destruct (n_own m); [apply Hkm|done]. }
    split.
    - done.
    - intros b. rewrite HL. case_decide; [apply closed_empty|]. eapply closed_past; [done|apply (j_lk _ _ _ _ HJ)].
    - intros b. rewrite Hent. unfold c'. simpl. case_decide as Hb; [subst; rewrite lookup_delete; split; intros []; done|].
      rewrite lookup_delete_ne by done. apply (j_nd _ _ _ _ HJ).
    - intros b j' F Hb. destruct (Hnd _ _ _ Hb) as (_&_&Hb'). destruct (j_cre _ _ _ _ HJ _ _ _ Hb') as (a&Ha&?&?). exists a.
      split; [|done]. unfold c'. cbn. rewrite !elem_of_cons. auto.
    - intros b b' j' F F' Hb Hb'. eapply (j_inj _ _ _ _ HJ); by eapply Hnd.
    - intros a j' Ha Hon. unfold c'. simpl. destruct (Htr a Ha) as [[_ Hj']|Ha'].
      + rewrite (Hj' _ Hon). destruct (j_cre _ _ _ _ HJ _ _ _ Hj) as (a'&Ha'&<-&Hw').
        assert (a_ev a' < nxt c); [|lia]. apply (j_loc _ _ _ _ HJ a'); [done|]. destruct Hw' as [[? _]|[? _]]; unfold on; auto.
      + pose proof (j_loc _ _ _ _ HJ a j' Ha' Hon). lia.
    - intros x. rewrite Hvars. apply (j_ob _ _ _ _ HJ).
    - intros b m u Hm Hu. destruct (He0 _ _ Hm) as [Hne Hm']. rewrite HL, decide_False by done. etrans; [by eapply (j_in _ _ _ _ HJ)|apply Hkm].
    - intros b. destruct (decide (b = h)) as [->|Hne].
      + intros j' F a Hb. by destruct (Hnd _ _ _ Hb) as [? _].
      + eapply HW; [apply (j_wr _ _ _ _ HJ)|by apply Hvis].
    - intros x b w r Hx Hw. rewrite Hvars in Hx. eapply HW; [by eapply (j_obj _ _ _ _ HJ)|done].
    - intros u i b Hi Ho. destruct (decide (u = t)) as [->|Hu].
      + destruct (Othr i b Hi Ho) as [(i0&Hi0&Ho0)|Hkb].
        * eapply HW; [by eapply (j_thr _ _ _ _ HJ)|apply Hkm].
        * eapply HW; [|apply Hkm]. eapply (knowsW_kid P s c L _ h n b); [done|apply (w_kn _ W)|by eexists| |done|done].
          rewrite <- Hvt. apply (j_wr _ _ _ _ HJ).
      + rewrite Hoth in Hi by done. eapply HW; [by eapply (j_thr _ _ _ _ HJ)|apply Hkm].
    - intros b m b' j' F D Hb Hkb Hj' HD. destruct (He0 _ _ Hb) as [_ Hb']. destruct (Hnd _ _ _ Hj') as (_&_&Hj0).
      eapply HW; [|done]. eapply (j_kid _ _ _ _ HJ); try done.
      unfold c' in HD. simpl in HD. rewrite lookup_insert_ne in HD; [done|]. intros <-.
      destruct (j_cre _ _ _ _ HJ _ _ _ Hj0) as (a&Ha&Hev&_). pose proof (closed_lt c _ (a_ev a) W (w_kn _ W _) (w_tr _ W a Ha)). lia.
    - intros b j' F m a Hb Hm Hv Ha Hon. destruct (Hold b j' F a Hb Ha Hon) as [??]. destruct (He0 _ _ Hm). apply Hvis; [done|]. by eapply (j_unb _ _ _ _ HJ).
    - intros b j' F a Hb Ha Hon. destruct (Hold b j' F a Hb Ha Hon) as [Hb0 Ha0].
      eapply (cov_step P s s' c c' L L' (λ b, b ≠ h)); [..|by eapply (j_cov _ _ _ _ HJ)|by eapply Hnd].
      + intros b' j0 E0 e Hne Hj0 He. eapply cov_c; [|done]. unfold c'. simpl. by rewrite lookup_delete_ne.
      + intros b' e Hne He. by apply cov_v, Hvis.
      + intros x b' w r e _ Hx Hw He. eapply cov_o; [by rewrite Hvars|done|done].
      + intros u i b' e _ Hi Ho He. destruct (decide (u = t)) as [->|Hu]; [|eapply cov_t; [by rewrite Hoth|done|by apply Hkm]].
        destruct (Cthr i b' Hi Ho) as (i'&?&?). eapply cov_t; [done|done|by apply Hkm].
      + intros b' m h' _ Hb' Hkb. destruct (decide (b' = h)) as [->|Hne].
        * right. intros e Hc. assert (m = n) as -> by congruence. destruct (Ckid h' Hkb) as (i'&?&?). eapply cov_t; [done|done|]. by apply Hkm, Hcv.
        * left. split; [done|]. exists m. by rewrite Hent, decide_False.
    - intros u b j' F Hi Hb. destruct (Hnd _ _ _ Hb) as (_&_&Hb'). etrans; [|apply Hkm]. destruct (decide (u = t)) as [->|Hu].
      + eapply (j_zero _ _ _ _ HJ); [by apply Hz|done].
      + rewrite Hoth in Hi by done. by eapply (j_zero _ _ _ _ HJ).
  Qed.

  (** ** An entry is created *)
  Lemma J_create s s' c L L' t a n : Inv s → J s c L → ents s !! a = None → n_own n = Some t →
    vars s' = vars s → (∀ u, u ≠ t → stack s' u = stack s u) →
    (∀ b, ents s' !! b = if decide (b = a) then Some n else ents s !! b) →
    (∀ b, L' b = if decide (b = a) then ∅ else L b) →
    (∀ i b, i ∈ stack s' t → 0 < own b i → ∃ i0, i0 ∈ stack s t ∧ 0 < own b i0) →
    (∀ i b, i ∈ stack s t → 0 < own b i → (∃ i', i' ∈ stack s' t ∧ 0 < own b i') ∨ b ∈ kids n) →
    (∀ b, b ∈ kids n → ∃ i, i ∈ stack s t ∧ 0 < own b i) →
    (∀ b, IErase b ∈ stack s' t → IErase b ∈ stack s t) → (∀ u, IErase a ∉ stack s u) →
    J s' (let c1 := emit t [(MRep (nxt c), Write); (MRef (nxt c), Write)] c in set_nd (<[a:=(nxt c, ∅)]> (nd c1)) c1) L'.
  Proof.
    intros HI HJ Ha0 Hown Hvars Hoth Hent HL Othr Cthr Hkids Hz Hza.
    assert (Hc0 : cnt s a = 0) by (by apply (i_gone _ _ _ _ HI)).
    assert (Hnone : nd c !! a = None).
    { destruct (nd c !! a) eqn:E; [|done]. destruct (proj1 (j_nd _ _ _ _ HJ a)) as [m Hm]; [by eexists|]. congruence. }
    pose proof (j_wf _ _ _ _ HJ) as W. set (j := nxt c).
    assert (Hltr : ∀ b : CoreHb.acc, b ∈ tr c → a_ev b < nxt c) by (intros b Hb; eapply closed_lt; [done|apply (w_kn _ W)|by apply (w_tr _ W)]).
    set (c1 := emit t _ c). assert (W1 : hwf c1).
    { apply emit_wf; [done|]. intros b l Hb Hl (Hloc&_). exfalso. assert (j < nxt c); [|unfold j in *; lia]. eapply (j_loc _ _ _ _ HJ b); [done|].
      rewrite !elem_of_cons, elem_of_nil in Hl. unfold on. destruct Hl as [->|[->|[]]]; simpl in Hloc; auto. }
    change (J s' (set_nd (<[a:=(j, ∅)]> (nd c1)) c1) L'). set (c' := set_nd (<[a:=(j, ∅)]> (nd c1)) c1). assert (W' : hwf c').
    { apply set_nd_wf; [done|]. intros b i F Hb. apply lookup_insert_Some in Hb as [[_ [= <- <-]]|[_ Hb]]; [apply closed_empty|by apply (w_nd _ W1 b i F)]. }
    assert (Hk : ∀ u, knows c' u = if decide (u = t) then knows c t ∪ {[j]} else knows c u) by (intros u; apply knows_emit).
    assert (Hkm : ∀ u, knows c u ⊆ knows c' u) by (intros u; rewrite Hk; case_decide; subst; set_solver).
    assert (Hp : ∀ e D, past c !! e = Some D → past c' !! e = Some D) by (intros e D; by apply past_emit).
    assert (Htr : ∀ b : CoreHb.acc, b ∈ tr c' → (a_ev b = j ∧ on j b ∧ ∀ j', on j' b → j' = j) ∨ b ∈ tr c).
    { intros b Hb. unfold c' in Hb. cbn in Hb. rewrite !elem_of_cons in Hb. unfold on.
      destruct Hb as [->|[->|Hb]]; [left; split_and!; simpl; naive_solver..|by right]. }
    assert (Htr1 : ∀ b : CoreHb.acc, b ∈ tr c → b ∈ tr c') by (intros b Hb; unfold c'; cbn; rewrite !elem_of_cons; auto).
    assert (Hnd : ∀ b j' F, nd c' !! b = Some (j', F) → (b = a ∧ j' = j ∧ F = ∅) ∨ (b ≠ a ∧ j' < j ∧ nd c !! b = Some (j', F))).
    { intros b j' F Hb. unfold c' in Hb. simpl in Hb. apply lookup_insert_Some in Hb as [[<- [= <- <-]]|[Hne Hb]]; [by left|]. right. split_and!; [done| |done].
      destruct (j_cre _ _ _ _ HJ _ _ _ Hb) as (b'&Hb'&<-&_). by apply Hltr. }
    assert (Hold : ∀ b j' F d, nd c' !! b = Some (j', F) → d ∈ tr c' → on j' d →
      (b = a ∧ a_ev d = j) ∨ (b ≠ a ∧ nd c !! b = Some (j', F) ∧ d ∈ tr c)).
    { intros b j' F d Hb Hd Hon. destruct (Hnd _ _ _ Hb) as [(->&->&->)|(Hne&Hlt&Hb')].
      - left. split; [done|]. destruct (Htr d Hd) as [(?&_)|Hd']; [done|]. exfalso. pose proof (j_loc _ _ _ _ HJ d j Hd' Hon). unfold j in *. lia.
      - right. split_and!; [done..|]. destruct (Htr d Hd) as [(_&_&Hj')|Hd']; [|done]. specialize (Hj' _ Hon). lia. }
    assert (HW : ∀ b (F F' : gset nat), b ≠ a → knowsW c F b → F ⊆ F' → knowsW c' F' b).
    { intros b F F' Hne HF' Hs j' G d Hb Hd Hw. destruct (Hold b j' G d Hb Hd) as [[-> _]|(_&?&?)]; [destruct Hw as [[? _]|[? _]]; unfold on; auto|done|].
      eapply Hs, HF'; eauto. }
    assert (He0 : ∀ b m, ents s' !! b = Some m → (b = a ∧ m = n) ∨ (b ≠ a ∧ ents s !! b = Some m)).
    { intros b m. rewrite Hent. case_decide; [intros [= <-]; auto|auto]. }
    assert (Hva : vis s' c' L' a = knows c t ∪ {[j]}) by (unfold vis; rewrite Hent, decide_True, Hown, Hk, decide_True by done; done).
    assert (Hvis : ∀ b, vis s c L b ⊆ vis s' c' L' b).
    { intros b. unfold vis. rewrite Hent, HL. case_decide; [subst; by rewrite Ha0|]. destruct (ents s !! b) as [m|]; [|done]. destruct (n_own m); [apply Hkm|done]. }
    assert (Hka : ∀ b m, ents s !! b = Some m → a ∉ kids m) by (intros b m Hb; by eapply no_cnt_kid).
    assert (Hkan : a ∉ kids n) by (intros H; apply Hkids in H as (i&Hi&Ho); pose proof (no_cnt_own P _ _ _ _ Hc0 Hi); lia).
    split.
    - done.
    - intros b. rewrite HL. case_decide; [apply closed_empty|]. eapply closed_past; [done|apply (j_lk _ _ _ _ HJ)].
    - intros b. rewrite Hent. unfold c'. simpl. case_decide as Hb; [subst; rewrite lookup_insert; split; by eexists|].
      rewrite lookup_insert_ne by done. apply (j_nd _ _ _ _ HJ).
    - intros b j' F Hb. destruct (Hnd _ _ _ Hb) as [(->&->&->)|(_&_&Hb')].
      + exists (CoreHb.Acc j t (MRep j) Write). split_and!; [unfold c'; cbn; rewrite !elem_of_cons; auto|done|by left].
      + destruct (j_cre _ _ _ _ HJ _ _ _ Hb') as (b'&Hb''&?&?). exists b'. auto.
    - intros b b' j' F F' Hb Hb'. destruct (Hnd _ _ _ Hb) as [(->&->&->)|(_&Hlt&Hb1)], (Hnd _ _ _ Hb') as [(->&?&->)|(_&Hlt'&Hb2)]; try done; try lia.
      by eapply (j_inj _ _ _ _ HJ).
    - intros b j' Hb Hon. unfold c'. simpl. destruct (Htr b Hb) as [(_&_&Hj')|Hb'].
      + rewrite (Hj' _ Hon). unfold j. lia.
      + pose proof (j_loc _ _ _ _ HJ b j' Hb' Hon). lia.
    - intros x. rewrite Hvars. apply (j_ob _ _ _ _ HJ).
    - intros b m u Hm Hu. rewrite HL. case_decide; [set_solver|]. destruct (He0 _ _ Hm) as [[? _]|[_ Hm']]; [done|].
      etrans; [by eapply (j_in _ _ _ _ HJ)|apply Hkm].
    - intros b. destruct (decide (b = a)) as [->|Hne]; [|eapply HW; [done|apply (j_wr _ _ _ _ HJ)|apply Hvis]].
      intros j' F d Hb Hd Hw. destruct (Hold a j' F d Hb Hd) as [[_ ->]|(?&_)]; [destruct Hw as [[? _]|[? _]]; unfold on; auto|rewrite Hva; set_solver|done].
    - intros x b w r Hx Hw. rewrite Hvars in Hx. eapply HW; [|by eapply (j_obj _ _ _ _ HJ)|done]. intros ->. by eapply no_cnt_var.
    - assert (H : ∀ u i b, i ∈ stack s u → 0 < own b i → knowsW c' (knows c' u) b).
      { intros u i b Hi Ho. eapply HW; [|by eapply (j_thr _ _ _ _ HJ)|apply Hkm]. intros ->.
        pose proof (no_cnt_own P _ _ _ _ Hc0 Hi). lia. }
      intros u i b Hi Ho. destruct (decide (u = t)) as [->|Hu]; [|rewrite Hoth in Hi by done; by eapply H].
      destruct (Othr i b Hi Ho) as (i0&Hi0&Ho0). by eapply H.
    - intros b m b' j' F D Hb Hkb Hj' HD. destruct (He0 _ _ Hb) as [[-> ->]|[Hne Hb']].
      + destruct (Hnd _ _ _ Hj') as [(_&->&_)|[? _]]; [|done]. unfold c' in HD. simpl in HD. rewrite lookup_insert in HD. injection HD as <-.
        destruct (Hkids b' Hkb) as (i&Hi&Ho). eapply HW; [congruence|by eapply (j_thr _ _ _ _ HJ)|done].
      + destruct (Hnd _ _ _ Hj') as [[? _]|(_&Hlt&Hj0)]; [done|]. unfold c' in HD. simpl in HD. rewrite lookup_insert_ne in HD by (unfold j in *; lia).
        eapply HW; [|by eapply (j_kid _ _ _ _ HJ)|done]. intros ->. by eapply Hka.
    - intros b j' F m d Hb Hm Hv Hd Hon. destruct (Hold b j' F d Hb Hd Hon) as [[-> ->]|(Hne&?&?)]; [rewrite Hva; set_solver|].
      destruct (He0 _ _ Hm) as [[? _]|[_ ?]]; [done|]. apply Hvis. by eapply (j_unb _ _ _ _ HJ).
    - intros b j' F d Hb Hd Hon. destruct (Hold b j' F d Hb Hd Hon) as [[-> ->]|(Hne&Hb0&Hd0)]; [apply cov_v; rewrite Hva; set_solver|].
      eapply (cov_step P s s' c c' L L' (λ _, True)); [..|by eapply (j_cov _ _ _ _ HJ)|done].
      + intros b' j0 E0 e _ Hj0 He. eapply cov_c; [|done]. unfold c'. simpl. rewrite lookup_insert_ne; [done|]. congruence.
      + intros b' e _ He. by apply cov_v, Hvis.
      + intros x b' w r e _ Hx Hw He. eapply cov_o; [by rewrite Hvars|done|done].
      + intros u i b' e _ Hi Ho He. destruct (decide (u = t)) as [->|Hu]; [|eapply cov_t; [by rewrite Hoth|done|by apply Hkm]].
        destruct (Cthr i b' Hi Ho) as [(i'&?&?)|Hkb]; [eapply cov_t; [done|done|by apply Hkm]|].
        eapply cov_k; [by rewrite Hent, decide_True|done|]. apply cov_v. rewrite Hva. set_solver.
      + intros b' m h' _ Hb' Hkb. left. split; [done|]. exists m. split; [|done]. rewrite Hent, decide_False; [done|]. congruence.
    - intros u b j' F Hi Hb. destruct (Hnd _ _ _ Hb) as [(->&->&->)|(Hne&_&Hb')]; [set_solver|]. etrans; [|apply Hkm].
      destruct (decide (u = t)) as [->|Hu]; [eapply (j_zero _ _ _ _ HJ); [by apply Hz|done]|]. rewrite Hoth in Hi by done. by eapply (j_zero _ _ _ _ HJ).
  Qed.
End Step.
