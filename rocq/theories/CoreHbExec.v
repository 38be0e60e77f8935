(** The steps of [CoreHb.v] one by one. *)
From Verif Require Export CoreHbStep.

Section Exec.
  Context {K A R V : Type}.
  Context (P : policy K A R V) (FS : factory K) (cfg : config) (inc_sync : bool).
  Context (eqv : K → K → bool) (good : R → Prop).
  Context (Heq : equivalence eqv) (HP : policy_ok eqv good P) (HF : factory_spec eqv FS).
  Context (t0 : tid).

  Notation state := (state (R:=R) (K:=K) (A:=A) FS).
  Notation instr := (instr (K:=K) (A:=A) (R:=R)).
  Notation node := (node (R:=R)).
  Notation Inv := (Inv P FS cfg eqv good HF t0).
  Notation allowed := (allowed cfg t0).
  Notation own := (own P).
  Notation cnt := (cnt P FS).
  Notation kids n := (p_kids P (n_rep n)).
  Notation public := (public FS cfg t0).
  Notation cov := (cov P FS cfg t0).
  Notation J := (J P FS cfg t0).
  Notation hexec := (hexec P FS cfg inc_sync true true).
  Notation exec := (exec P FS cfg).
  Notation ent_ok s s' := (∀ h, match entry s h, entry s' h with
          | Some n, Some n' => (∀ a, a ∈ kids n' ↔ a ∈ kids n) ∧ (p_val P (n_rep n') = None → p_val P (n_rep n) = None)
          | None, None => True | _, _ => False end).
  Implicit Types (s : state) (c : hb) (n : node) (h b : addr) (i : instr).

  Definition stk_is s s' t (new : list instr) : Prop := ∀ u, stack s' u = if decide (u = t) then new else stack s u.
  Lemma stk_set s s1 t new : stacks s1 = stacks s → stk_is s (set_stack t new s1) t new.
  Proof. intros E u. unfold stack, set_stack; simpl. rewrite E. case_decide; subst; [by rewrite lookup_insert|by rewrite lookup_insert_ne]. Qed.
  Lemma stk_log s s' t new e : stk_is s s' t new → stk_is s (add_log e s') t new.
  Proof. done. Qed.

  Lemma J_head s s' c t i rest pre : J s c → stack s t = i :: rest → lock s' = lock s → vars s' = vars s →
    stk_is s s' t (pre ++ rest) → ent_ok s s' →
    (∀ h, 0 < lsum (own h) pre → 0 < own h i ∨ knowsW c (knows c t) h) →
    (trk cfg = true → ∀ h, 0 < own h i → 0 < lsum (own h) pre ∨ ∀ e, e ∈ knows c t → cov s' c h e) →
    (trk cfg = true → ∀ h n n', entry s h = Some n → entry s' h = Some n' → n_ref n' = 0%Z →
       (n_ref n = 0%Z ∧ (0 < pend h i → 0 < lsum (pend h) pre ∨ knows c t ⊆ public s c)) ∨ (cset c h ⊆ knows c t ∧ 0 < lsum (pend h) pre)) →
    J s' c.
  Proof.
    intros HJ Hst Hl Hv Hsk Hent Ht Hc Hz. pose proof (Hsk t) as Hskt. rewrite decide_True in Hskt by done.
    eapply (J_move P FS cfg t0 s s' c t); try done.
    - intros u Hu. by rewrite Hsk, decide_False.
    - intros i' h Hi Ho. rewrite Hskt, elem_of_app in Hi. destruct Hi as [Hi|Hi].
      + destruct (Ht h) as [?|?]; [apply lsum_pos; eauto| |by right]. left. exists i. rewrite Hst. split; [by left|done].
      + left. exists i'. rewrite Hst. split; [by right|done].
    - intros Et i' h e Hi Ho He. rewrite Hst in Hi. apply elem_of_cons in Hi as [->|Hi].
      + destruct (Hc Et h Ho) as [Hp|Hp]; [|right; by apply Hp]. apply lsum_pos in Hp as (i''&?&?). left. exists i''. rewrite Hskt, elem_of_app. auto.
      + left. exists i'. rewrite Hskt, elem_of_app. auto.
    - intros Et h n n' Hn Hn' H0. destruct (Hz Et h n n' Hn Hn' H0) as [[Hr Hp]|[Hs Hp]].
      + left. split; [done|]. intros i' Hi Hpi. rewrite Hst in Hi. apply elem_of_cons in Hi as [->|Hi].
        * destruct (Hp Hpi) as [Hq|?]; [|by right]. apply lsum_pos in Hq as (i''&?&?). left. exists i''. rewrite Hskt, elem_of_app. auto.
        * left. exists i'. rewrite Hskt, elem_of_app. auto.
      + right. split; [done|]. apply lsum_pos in Hp as (i''&?&?). exists i''. rewrite Hskt, elem_of_app. auto.
  Qed.

  Lemma ent_put s s' h n n' : entry s h = Some n → n_linked n' = true → (∀ b, entry s' b = entry (put h n' s) b) →
    (∀ a, a ∈ kids n' ↔ a ∈ kids n) → (p_val P (n_rep n') = None → p_val P (n_rep n) = None) → ent_ok s s'.
  Proof.
    intros Hn Hl He Hk Hv b. rewrite He, entry_put, Hl. case_decide; subst; [by rewrite Hn|]. by destruct (entry s b).
  Qed.

  Lemma own_finish b x h ks k : lsum (own b) (finish x h ks k) = occ b ks + at_ b h.
  Proof. unfold finish. rewrite lsum_cons, lsum_app, lsum_own_release, lsum_cons, lsum_nil. simpl. lia. Qed.
  Lemma own_unwind b x ks : lsum (own b) (unwind (K:=K) (A:=A) (R:=R) x ks) = occ b ks.
  Proof. unfold unwind. rewrite lsum_cons, lsum_app, lsum_own_release, lsum_cons, lsum_nil. simpl. lia. Qed.

  (** the mutex is taken, given back *)
  Lemma acquire_eq s t s1 : acquire FS cfg s t = Some s1 →
    heap s1 = heap s ∧ vars s1 = vars s ∧ stacks s1 = stacks s ∧
    (lck cfg = true → (lock s = None ∨ ∃ d, lock s = Some (t, d)) ∧ ∃ d, lock s1 = Some (t, d)) ∧ (lck cfg = false → lock s1 = lock s).
  Proof. unfold acquire. repeat case_match; intros; simplify_eq; simpl; naive_solver. Qed.

  Lemma J_lock s s1 s' c t i rest pre : Inv s → J s c → acquire FS cfg s t = Some s1 → stack s t = i :: rest →
    heap s' = heap s1 → vars s' = vars s1 → lock s' = lock s1 → stk_is s s' t (pre ++ rest) →
    (∀ h, lsum (own h) pre = own h i) → (∀ h, lsum (pend h) pre = pend h i) →
    J s' (if lck cfg then learn t (mset c) c else c).
  Proof.
    intros HI HJ Ha Hst Eh Ev El Hsk Ho Hp. destruct (acquire_eq _ _ _ Ha) as (Fh&Fv&Fs&Fl&Fl').
    assert (He : ∀ b, entry s' b = entry s b) by (intros b; unfold entry; by rewrite Eh, Fh).
    destruct (lck cfg) eqn:Elk.
    - assert (HJ1 : J s (learn t (mset c) c)) by (eapply (J_learn P FS cfg eqv good Heq HP HF t0); [done|done|apply (w_mset _ (j_wf _ _ _ _ _ _ HJ))]).
      set (c1 := learn t (mset c) c) in *. pose proof (Hsk t) as Hskt. rewrite decide_True in Hskt by done.
      destruct (Fl eq_refl) as (Hold&d&Hnew). assert (Hm : mset c1 ⊆ knows c1 t) by (unfold c1; rewrite knows_learn, decide_True by done; simpl; set_solver).
      assert (Hpub : public s' c1 = knows c1 t) by (unfold CoreHbInv.public; by rewrite Elk, El, Hnew).
      eapply (J_st P FS cfg t0 s s' c1 c1 t); try done.
      + apply HJ1.
      + rewrite Hpub. unfold CoreHbInv.public. rewrite Elk. by destruct Hold as [->|[d' ->]].
      + intros u Hu. by rewrite Hsk, decide_False.
      + by apply ent_same.
      + intros x. rewrite Ev, Fv. apply (j_ob _ _ _ _ _ _ HJ1).
      + intros _ u d' Hl. rewrite El, Hnew in Hl. by injection Hl as <- <-.
      + intros x h w r Hx Hw. left. rewrite Ev, Fv in Hx. eauto.
      + intros i' h Hi Hoi. left. rewrite Hskt, elem_of_app in Hi. rewrite Hst. destruct Hi as [Hi|Hi]; [|exists i'; split; [by right|done]].
        exists i. split; [by left|]. rewrite <- Ho. apply lsum_pos. eauto.
      + intros Et x h w r e Hx Hw Hin. eapply cov_o; [by rewrite Ev, Fv|done|done].
      + intros Et i' h e Hi Hoi Hin. left. rewrite Hst in Hi. rewrite Hskt. apply elem_of_cons in Hi as [->|Hi].
        * rewrite <- Ho in Hoi. apply lsum_pos in Hoi as (i''&?&?). exists i''. rewrite elem_of_app. auto.
        * exists i'. rewrite elem_of_app. auto.
      + intros Et h n n' Hn Hn' H0. left. rewrite He, Hn in Hn'. injection Hn' as <-. split; [done|]. intros i' Hi Hpi. right. by rewrite Hpub.
    - eapply (J_head s s' c t i rest pre); try done.
      + by rewrite El, Fl'.
      + by rewrite Ev.
      + by apply ent_same.
      + intros h. rewrite Ho. auto.
      + intros _ h. rewrite Ho. auto.
      + intros Et h n n' Hn Hn' H0. left. rewrite He, Hn in Hn'. injection Hn' as <-. split; [done|]. rewrite Hp. auto.
  Qed.

  Lemma unlock_eq s t s1 : unlock FS cfg s t = Some s1 →
    heap s1 = heap s ∧ vars s1 = vars s ∧ stacks s1 = stacks s ∧
    (lck cfg = true → ∃ d, lock s = Some (t, S d) ∧ lock s1 = if decide (d = 0) then None else Some (t, d)) ∧ (lck cfg = false → lock s1 = lock s).
  Proof.
    unfold unlock. destruct (lck cfg); [|by intros [= <-]]. destruct (lock s) as [[t' [|d]]|]; try done.
    destruct (decide (t = t')) as [<-|]; [|done]. intros [= <-]. split_and!; try done. intros _. by exists d.
  Qed.

  Lemma J_unlock s s1 c t rest : Inv s → J s c → unlock FS cfg s t = Some s1 → stack s t = IUnlock :: rest →
    J (set_stack t rest s1) (match lock s with Some (_, 1) => set_mset (mset c ∪ knows c t) c | _ => c end).
  Proof.
    intros HI HJ Hu Hst. destruct (unlock_eq _ _ _ Hu) as (Fh&Fv&Fs&Fl&Fl'). set (s' := set_stack t rest s1).
    assert (Hsk : stk_is s s' t ([] ++ rest)) by (by apply stk_set).
    assert (He : ∀ b, entry s' b = entry s b) by (intros b; unfold entry; simpl; by rewrite Fh).
    pose proof (crit_head P FS cfg eqv good HF t0 s c t _ rest HI Hst eq_refl) as Hpub.
    set (c' := match lock s with Some (_, 1) => _ | _ => c end).
    pose proof (j_wf _ _ _ _ _ _ HJ) as W.
    assert (F : hwf c' ∧ (∀ u, knows c' u = knows c u) ∧ nd c' = nd c ∧ past c' = past c ∧ tr c' = tr c ∧ nxt c' = nxt c ∧ ob c' = ob c).
    { unfold c'. destruct (lock s) as [[? [|[]]]|]; try done. split; [|done]. apply set_mset_wf; [done|]. apply closed_union; [apply (w_mset _ W)|apply (w_kn _ W)]. }
    destruct F as (W'&Fk&Fn&Fp&Ft&Fx&Fo).
    assert (Hp' : knows c t ⊆ public s' c').
    { rewrite <- Hpub. unfold CoreHbInv.public. destruct (lck cfg) eqn:El; [|by rewrite Fk]. destruct (Fl eq_refl) as (d&Hl&Hl'). simpl. rewrite Hl, Hl'.
      unfold c'. rewrite Hl. destruct d as [|d]; simpl; [set_solver|done]. }
    eapply (J_st P FS cfg t0 s s' c c' t); try done.
    - by rewrite Hpub.
    - intros u Hne. by rewrite Hsk, decide_False.
    - by apply ent_same.
    - intros x. rewrite Fo. simpl. rewrite Fv. apply (j_ob _ _ _ _ _ _ HJ).
    - intros El u d Hl. destruct (Fl El) as (d0&Hl0&Hl'). simpl in Hl. rewrite Hl' in Hl. rewrite Fk. case_decide as Hd; [done|]. injection Hl as <- <-.
      unfold c'. rewrite Hl0. destruct d0; [done|]. by eapply (j_mset _ _ _ _ _ _ HJ).
    - intros x h w r Hx Hw. left. simpl in Hx. rewrite Fv in Hx. rewrite Fo in Hw. eauto.
    - intros i h Hi Ho. left. pose proof (Hsk t) as Hskt. rewrite decide_True in Hskt by done. rewrite Hskt in Hi. exists i. rewrite Hst. split; [by right|done].
    - intros Et x h w r e Hx Hw Hin. eapply cov_o; [simpl; by rewrite Fv|by rewrite Fo|done].
    - intros Et i h e Hi Ho Hin. right. apply cov_p. by apply Hp'.
    - intros Et h n n' Hn Hn' H0. left. rewrite He, Hn in Hn'. injection Hn' as <-. split; [done|]. intros i Hi Hpi. by right.
  Qed.

  (** what was done with an entry that is erased is known *)
  Lemma pend_one s t u i h : lsum (pend h) (stack s t) = tsum FS (pend h) s → i ∈ stack s u → 0 < pend h i → u = t.
  Proof.
    intros Hs Hi Hp. destruct (decide (u = t)) as [|Hne]; [done|]. exfalso.
    pose proof (tsum_set _ (pend h) s t []) as E. rewrite lsum_nil in E.
    pose proof (tsum_elem _ (pend h) (set_stack t [] s) u i) as H. rewrite stack_set, decide_False in H by done. specialize (H Hi). lia.
  Qed.

  Lemma J_erase s s1 is c t i rest h n m new : Inv s → J s c → stack s t = i :: rest → ulk i = 1 → entry s h = Some n → cnt s h = 0 →
    n_rep m = n_rep n → p_val P (n_rep n) = None ∨ (trk cfg = true ∧ lsum (pend h) (stack s t) = tsum FS (pend h) s) →
    erase P FS s h m = (s1, is) → (∀ b, 0 < lsum (own b) new → 0 < own b i) →
    J (set_stack t (is ++ new ++ rest) s1) (destroy t h c).
  Proof.
    intros HI HJ Hst Hu Hn H0 Hm Hwhy [= <- <-] Hnew. pose proof (λ c', crit_head P FS cfg eqv good HF t0 s c' t i rest HI Hst Hu) as Hp.
    assert (Hz : trk cfg = true → cset c h ⊆ knows c t).
    { intros Et. destruct (proj2 (j_nd _ _ _ _ _ _ HJ h)) as [[j E] Hj]; [by eexists|]. unfold cset. rewrite Hj.
      pose proof (i_ref _ _ _ _ _ (i_C _ _ _ _ _ _ _ _ HI) Et h n Hn) as Hr. rewrite H0 in Hr.
      destruct (j_zero _ _ _ _ _ _ HJ Et h j E n Hj Hn Hr) as [?|(u&i'&Hi'&Hpe&HE)]; [by rewrite <- Hp|].
      destruct Hwhy as [Hv|[_ Hone]].
      - destruct (i_undone _ _ _ _ _ (i_C _ _ _ _ _ _ _ _ HI) h n Hn Hv) as (_&Hp0&_). pose proof (tsum_elem _ (pend h) s u i' Hi'). lia.
      - by rewrite (pend_one s t u i' h) in HE. }
    eapply (J_destroy P FS cfg eqv good Heq HP t0 s _ c t h n); try done.
    - intros j E a Hj Ha Hon. destruct Hwhy as [Hv|[Et _]].
      + rewrite <- Hp. by eapply (j_unb _ _ _ _ _ _ HJ).
      + pose proof (j_cov _ _ _ _ _ _ HJ Et h j E a Hj Ha Hon) as Hc. apply cov_cnt0 in Hc as [?|?]; [by apply Hz|by rewrite <- Hp|done].
    - intros u Hne. by rewrite stack_set, decide_False.
    - intros b. change (entry (put h (unlinked m) s) b = if decide (b = h) then None else entry s b). by rewrite entry_put.
    - intros i' b Hi Ho. rewrite stack_set, decide_True in Hi by done. rewrite !elem_of_app in Hi. rewrite <- Hm.
      destruct Hi as [[Hi|Hi]|[Hi|Hi]].
      + apply elem_of_list_fmap in Hi as (k&->&Hk). right. simpl in Ho. unfold at_ in Ho. case_decide; [by subst|lia].
      + apply elem_of_list_singleton in Hi as ->. simpl in Ho. lia.
      + left. exists i. rewrite Hst. split; [by left|]. apply Hnew, lsum_pos. eauto.
      + left. exists i'. rewrite Hst. split; [by right|done].
  Qed.

  Lemma nd_entry s c h n : J s c → entry s h = Some n → ∃ j E, nd c !! h = Some (j, E) ∧ idn c h = j ∧ cset c h = E.
  Proof.
    intros HJ Hn. destruct (proj2 (j_nd _ _ _ _ _ _ HJ h)) as [[j E] Hj]; [by eexists|]. exists j, E. unfold idn, cset. by rewrite Hj.
  Qed.

  (** one micro-instruction *)
  Lemma exec_J s c t i rest ch s' : Inv s → J s c → allowed t → stack s t = i :: rest → exec s t i rest ch = Next s' → Inv s' →
    J s' (hexec s t i ch c).
  Proof.
    intros HI HJ Hal Hst He HI'. pose proof HI as [HH HC HS]. pose proof (i_head _ _ _ _ _ HC _ _ _ Hst) as Hhd.
    pose proof (λ c' U, crit_head P FS cfg eqv good HF t0 s c' t i rest HI Hst U) as Hp.
    pose proof (λ c ls, J_emit P FS cfg eqv good Heq HP HF t0 s c t ls HI) as JE.
    destruct i as [x p r|x p r|x h p ks k|x h ks k|x h ks k| |h|h|h|h|x h k|x]; simpl in He, Hhd; cbn [CoreHb.hexec].
    - (* ILockFind *)
      destruct (acquire FS cfg s t) as [s1|] eqn:Ha; [|done]. injection He as <-.
      eapply (J_lock s s1 _ c t _ rest [IFind x p r]); try done.
      + apply stk_set. apply (acquire_eq _ _ _ Ha).
      + intros h. rewrite lsum_cons, lsum_nil. simpl. lia.
    - (* IFind *)
      specialize (λ c', Hp c' eq_refl). set (ls := (MFac, Write) :: _).
      assert (HJ1 : J s (emit t ls c)).
      { apply JE; [done|done|done|]. intros l [->|Hl]%elem_of_cons; [done|]. apply elem_of_list_fmap in Hl as ([h [j E]]&->&Hl).
        apply elem_of_map_to_list in Hl. exists h, E. auto. }
      set (c1 := emit t ls c) in *. destruct (c_throw ch).
      { injection He as <-. eapply (J_head s _ c1 t _ rest (unwind x (p_kids P r))); try done.
        - by apply stk_set.
        - by apply ent_same.
        - intros h. rewrite own_unwind. auto.
        - intros _ h. rewrite own_unwind. auto.
        - intros Et b n n' Hn Hn' H0. left. assert (n' = n) as -> by (change (entry s b = Some n') in Hn'; congruence). split; [done|]. simpl. lia. }
      destruct (f_find FS (cont s) (kview P s) (p_key P r)) as [h| |] eqn:Hf; [| |done].
      + injection He as <-. eapply (J_head s _ c1 t _ rest [IVisit x h p (p_kids P r) (p_key P r)]); try done.
        * by apply stk_set.
        * by apply ent_same.
        * intros b. rewrite lsum_cons, lsum_nil. simpl. rewrite Nat.add_0_r. auto.
        * intros _ b. rewrite lsum_cons, lsum_nil. simpl. rewrite Nat.add_0_r. auto.
        * intros Et b n n' Hn Hn' H0. left. assert (n' = n) as -> by (change (entry s b = Some n') in Hn'; congruence). split; [done|]. simpl. lia.
      + destruct (heap s !! c_addr ch) eqn:Hah; [done|]. injection He as <-.
        eapply (J_create P FS cfg eqv good Heq HP HF t0 s _ c1 t (c_addr ch) (Node r 0 0 true (clock s))); try done.
        * unfold entry. by rewrite Hah.
        * intros u Hu. rewrite stack_set, decide_False by done. done.
        * intros b. change (entry (put (c_addr ch) (Node r 0 0 true (clock s)) s) b =
            if decide (b = c_addr ch) then Some (Node r 0 0 true (clock s)) else entry s b). by rewrite entry_put.
        * intros i b Hi Ho. rewrite stack_set, decide_True in Hi by done. apply elem_of_cons in Hi as [->|Hi].
          -- simpl in Ho. rewrite occ_nil in Ho. lia.
          -- exists i. rewrite Hst. split; [by right|done].
        * intros b Hb. eapply (own_cnt P FS s t (IFind x p r)); [rewrite Hst; by left|]. simpl. by apply occ_pos.
    - (* IVisit *)
      specialize (λ c', Hp c' eq_refl). destruct Hhd as (n&Hn&_&Hmk). destruct (nd_entry s c h n HJ Hn) as (j&E&Hj&Hid&Hcs).
      rewrite Hn in He |- *. destruct (p_val P (n_rep n)) as [v|] eqn:Hv.
      + injection He as <-. assert (HJ1 : J s (emit t [(MRep (idn c h), Read)] c)).
        { apply JE; [done|done|done|]. intros l ->%elem_of_list_singleton. rewrite Hid. exists h, E. auto. }
        eapply (J_head s _ _ t _ rest [IAddRef x h ks k]); try done.
        * by apply stk_set.
        * by apply ent_same.
        * intros b. rewrite lsum_cons, lsum_nil. simpl. rewrite Nat.add_0_r. auto.
        * intros _ b. rewrite lsum_cons, lsum_nil. simpl. rewrite Nat.add_0_r. auto.
        * intros Et b m n' Hm Hn' H0. left. assert (n' = m) as -> by (change (entry s b = Some n') in Hn'; congruence). split; [done|]. simpl. lia.
      + destruct (c_throw ch).
        * injection He as <-. destruct (i_undone _ _ _ _ _ HC _ _ Hn Hv) as (Hc0&_&_).
          eapply (J_erase s _ _ c t _ rest h n n (unwind x ks)); [done|done|done|done|done|done|done|by left|reflexivity|]. intros b. by rewrite own_unwind.
        * injection He as <-. assert (HJ1 : J s (emit t [(MRep (idn c h), Write)] c)).
          { apply JE; [done|done|done|]. intros l ->%elem_of_list_singleton. rewrite Hid. exists h, E. eauto. }
          destruct Hmk as [ks0 Hmk]; [done|]. destruct (po_build _ _ _ HP _ _ _ Hmk Hv) as (Hbv&_&_&Hbo).
          assert (Hl : n_linked n = true) by (by apply entry_heap in Hn as [_ ?]).
          eapply (J_head s _ _ t _ rest [IAddRef x h ks k]); try done.
          -- by apply stk_set.
          -- eapply (ent_put s _ h n (with_rep n (p_build P p (n_rep n)))); try done. intros a. simpl. by rewrite <- !occ_pos, Hbo.
          -- intros b. rewrite lsum_cons, lsum_nil. simpl. rewrite Nat.add_0_r. auto.
          -- intros _ b. rewrite lsum_cons, lsum_nil. simpl. rewrite Nat.add_0_r. auto.
          -- intros Et b m n' Hm Hn' H0. left. split; [|simpl; lia].
             change (entry (put h (with_rep n (p_build P p (n_rep n))) s) b = Some n') in Hn'. rewrite entry_put in Hn'. simpl in Hn'. rewrite Hl in Hn'.
             case_decide; [subst; rewrite Hn in Hm; injection Hm as <-; by injection Hn' as <-|congruence].
    - (* IAddRef *)
      specialize (λ c', Hp c' eq_refl). destruct Hhd as (n&Hn&_&Hv). destruct (nd_entry s c h n HJ Hn) as (j&E&Hj&Hid&Hcs).
      assert (HWh : knowsW c (knows c t) h) by (rewrite <- Hp; apply (j_wr _ _ _ _ _ _ HJ)).
      assert (Hl : n_linked n = true) by (by apply entry_heap in Hn as [_ ?]).
      unfold incr. destruct (trk cfg) eqn:Et.
      + rewrite Hn in He. set (n' := with_ref n (n_ref n + 1)) in *.
        assert (Hf : ∃ pre, s' = set_stack t (pre ++ rest) (put h n' s) ∧ (∀ b, lsum (own b) pre = occ b ks + at_ b h)).
        { destruct (decide _); injection He as <-; [exists [IAddDel x h ks k]|exists (finish x h ks k)]; (split; [done|]).
          - intros b. rewrite lsum_cons, lsum_nil. simpl. lia.
          - intros b. apply own_finish. }
        destruct Hf as (pre&->&Hpre). set (s' := set_stack t _ _) in *.
        assert (HJ1 : J s' c).
        { eapply (J_head s s' c t _ rest pre); try done.
          - by apply stk_set.
          - by eapply (ent_put s s' h n n').
          - intros b. rewrite Hpre. simpl. intros Hb. destruct (decide (b = h)) as [->|Hne]; [by right|left]. rewrite at_ne in Hb by done. lia.
          - intros _ b Hb. simpl in Hb. left. rewrite Hpre. lia.
          - intros _ b m m' Hm Hm' H0. left. split; [|simpl; lia]. change (entry (put h n' s) b = Some m') in Hm'. rewrite entry_put in Hm'. simpl in Hm'. rewrite Hl in Hm'.
            case_decide; [|congruence]. subst. rewrite Hn in Hm. injection Hm as <-. injection Hm' as <-. simpl in H0.
            pose proof (i_ref _ _ _ _ _ HC Et h n Hn). lia. }
        assert (Ht : ∃ i, i ∈ stack s' t ∧ 0 < own h i).
        { assert (0 < lsum (own h) pre) as Hpos by (rewrite Hpre, at_eq; lia). apply lsum_pos in Hpos as (i&Hi&Ho). exists i.
          unfold s'. rewrite stack_set, decide_True by done. rewrite elem_of_app. auto. }
        eapply (J_rmw P FS cfg eqv good Heq HP HF t0 s' c t h _ _ None); try done.
        destruct Ht as (i&Hi&Ho). by eapply own_cnt.
      + injection He as <-. eapply (J_head s _ c t _ rest (finish x h ks k)); try done.
        * by apply stk_set.
        * by apply ent_same.
        * intros b. rewrite own_finish. simpl. intros Hb. destruct (decide (b = h)) as [->|Hne]; [by right|left]. rewrite at_ne in Hb by done. lia.
        * by rewrite Et.
        * by rewrite Et.
    - (* IAddDel *)
      specialize (λ c', Hp c' eq_refl). destruct Hhd as (n&Hn&_&Hv). destruct (nd_entry s c h n HJ Hn) as (j&E&Hj&Hid&Hcs). rewrite Hn in He. injection He as <-.
      assert (Hl : n_linked n = true) by (by apply entry_heap in Hn as [_ ?]).
      assert (HJ1 : J s (emit t [(MDel (idn c h), Write)] c)).
      { apply JE; [done|done|done|]. intros l ->%elem_of_list_singleton. rewrite Hid. exists h, E. auto. }
      eapply (J_head s _ _ t _ rest (finish x h ks k)); try done.
      + by apply stk_set.
      + by eapply (ent_put s _ h n (with_del n (n_del n + 1))).
      + intros b. rewrite own_finish. simpl. intros ?. left. lia.
      + intros _ b. rewrite own_finish. simpl. intros ?. left. lia.
      + intros Et b m n' Hm Hn' H0. left. split; [|simpl; lia].
        change (entry (put h (with_del n (n_del n + 1)) s) b = Some n') in Hn'. rewrite entry_put in Hn'. simpl in Hn'. rewrite Hl in Hn'.
        case_decide; [subst; rewrite Hn in Hm; injection Hm as <-; by injection Hn' as <-|congruence].
    - (* IUnlock *)
      destruct (unlock FS cfg s t) as [s1|] eqn:Hu; [|done]. injection He as <-. by apply J_unlock.
    - (* IRelease *)
      assert (Hown : IRelease h ∈ stack s t ∧ 0 < own h (IRelease h)) by (rewrite Hst; split; [by left|simpl; rewrite at_eq; lia]).
      destruct Hown as [Hin Ho]. pose proof (own_cnt P FS s t _ h Hin Ho) as Hc. unfold decr. destruct (trk cfg) eqn:Et.
      + destruct (entry s h) as [n|] eqn:Hn; [|done]. destruct (nd_entry s c h n HJ Hn) as (j&E&Hj&Hid&Hcs).
        assert (Hl : n_linked n = true) by (by apply entry_heap in Hn as [_ ?]). set (n' := with_ref n (n_ref n - 1)) in *.
        set (c1 := rmw true true t h c). assert (HJ1 : J s c1).
        { eapply (J_rmw P FS cfg eqv good Heq HP HF t0 s c t h _ _ None); try done; [|by eexists]. by eapply (j_thr _ _ _ _ _ _ HJ). }
        assert (Hcs1 : ∃ E1, nd c1 !! h = Some (j, E1) ∧ E1 = knows c1 t).
        { unfold c1. rewrite (nd_rmw _ _ _ _ _ _ _ Hj), lookup_insert, knows_rmw, decide_True, Hcs by done. eexists. split; [done|]. set_solver. }
        destruct Hcs1 as (E1&Hj1&HE1).
        assert (Hf : ∃ pre, s' = set_stack t (pre ++ rest) (put h n' s) ∧ (∀ b, lsum (own b) pre = 0) ∧ (n_ref n' = 0%Z → 0 < lsum (pend h) pre)).
        { simpl in He. destruct (decide _) as [Hz|Hz]; injection He as <-; [exists [ILockCheck h]|exists []]; (split_and!; [done|done|]); [|done].
          intros _. rewrite lsum_cons. simpl. rewrite at_eq. lia. }
        destruct Hf as (pre&->&Hpre&Hpe). set (s' := set_stack t _ _) in *.
        eapply (J_head s s' c1 t _ rest pre); try done.
        * by apply stk_set.
        * by eapply (ent_put s s' h n n').
        * intros b. rewrite Hpre. lia.
        * intros _ b Hb. simpl in Hb. right. unfold at_ in Hb. case_decide; [subst b|lia]. intros e Hin'. eapply cov_c; [done|]. by rewrite HE1.
        * intros _ b m m' Hm Hm' H0. change (entry (put h n' s) b = Some m') in Hm'. rewrite entry_put in Hm'. simpl in Hm'. rewrite Hl in Hm'.
          case_decide; [|left; split; [congruence|simpl; lia]]. subst b. injection Hm' as <-. right. split; [|by apply Hpe].
          unfold cset. by rewrite Hj1, HE1.
      + injection He as <-. eapply (J_head s _ c t _ rest []); try done.
        * by apply stk_set.
        * by apply ent_same.
        * intros b. rewrite lsum_nil. lia.
        * by rewrite Et.
        * by rewrite Et.
    - (* ILockCheck *)
      destruct (acquire FS cfg s t) as [s1|] eqn:Ha; [|done]. injection He as <-.
      eapply (J_lock s s1 _ c t _ rest [ICheck h]); try done.
      + apply stk_set. apply (acquire_eq _ _ _ Ha).
      + intros b. rewrite lsum_cons, lsum_nil. simpl. lia.
    - (* ICheck *)
      specialize (λ c', Hp c' eq_refl). destruct (entry s h) as [n|] eqn:Hn; [|done]. destruct (nd_entry s c h n HJ Hn) as (j&E&Hj&Hid&Hcs).
      assert (HJ1 : J s (emit t [(MDel (idn c h), Write)] c)).
      { apply JE; [done|done|done|]. intros l ->%elem_of_list_singleton. rewrite Hid. exists h, E. auto. }
      set (c1 := emit t _ c) in *. assert (Hl : n_linked n = true) by (by apply entry_heap in Hn as [_ ?]).
      destruct (decide ((n_del n - 1)%Z = 0%Z)) as [Hz|Hz].
      + injection He as <-.
        assert (Et : trk cfg = true) by (eapply (i_trk _ _ _ _ _ HC t (ICheck h)); rewrite Hst; by left).
        assert (Hp1 : 0 < lsum (pend h) (stack s t)) by (rewrite Hst, lsum_cons; simpl; rewrite at_eq; lia).
        pose proof (tsum_ge _ (pend h) s t) as Hge.
        assert (Hdel := i_del _ _ _ _ _ HC Et _ _ Hn). rewrite (addel_only P FS cfg eqv good Heq HP t0 s t _ rest h HS Hst) in Hdel by done. simpl in Hdel.
        assert (Hc0 : cnt s h = 0).
        { destruct (Nat.eq_dec (cnt s h) 0) as [|Hnz]; [done|]. rewrite bool_decide_true in Hdel by lia. simpl in Hdel. lia. }
        rewrite Hc0 in Hdel. simpl in Hdel.
        eapply (J_erase s _ _ c1 t _ rest h n (with_del n (n_del n - 1)) [IUnlock]); [done|done|done|done|done|done|done|right; split; [done|lia]|reflexivity|].
        intros b. rewrite lsum_cons, lsum_nil. simpl. lia.
      + injection He as <-. eapply (J_head s _ c1 t _ rest [IUnlock]); try done.
        * by apply stk_set.
        * by eapply (ent_put s _ h n (with_del n (n_del n - 1))).
        * intros b. rewrite lsum_cons, lsum_nil. simpl. lia.
        * intros _ b. simpl. lia.
        * intros Et b m n' Hm Hn' H0. left. split; [|intros _; right; by rewrite Hp].
          change (entry (put h (with_del n (n_del n - 1)) s) b = Some n') in Hn'. rewrite entry_put in Hn'. simpl in Hn'. rewrite Hl in Hn'.
          case_decide; [subst; rewrite Hn in Hm; injection Hm as <-; by injection Hn' as <-|congruence].
    - (* IFree *)
      destruct (heap s !! h) as [n|] eqn:Hh; [|done]. destruct (n_linked n) eqn:Hl; [done|]. injection He as <-.
      assert (E : ∀ a, entry (set_stack t rest (set_heap (delete h (heap s)) s)) a = entry s a).
      { intros a. unfold entry. simpl. destruct (decide (a = h)) as [->|Hne]; [by rewrite lookup_delete, Hh, Hl|by rewrite lookup_delete_ne]. }
      eapply (J_head s _ c t _ rest []); try done.
      + by apply stk_set.
      + by apply ent_same.
      + intros b. rewrite lsum_nil. lia.
      + intros _ b. simpl. lia.
      + intros Et b m m' Hm Hm' H0. left. rewrite E in Hm'. split; [congruence|simpl; lia].
    - (* IBind *)
      injection He as <-. assert (Hin : IBind x h k ∈ stack s t) by (rewrite Hst; by left). assert (Ho : 0 < own h (IBind x h k)) by (simpl; rewrite at_eq; lia).
      pose proof (making_one P FS cfg eqv good Heq HP HF t0 s t [] HI Hal x _ Hin (at_eq x)) as Hx. set (s' := add_log _ _).
      pose proof (j_wf _ _ _ _ _ _ HJ) as W. assert (Hsk : stk_is s s' t rest) by (by apply stk_log, stk_set).
      assert (Hskt : stack s' t = rest) by (by rewrite Hsk, decide_True).
      eapply (J_st P FS cfg t0 s s' c _ t); try done.
      + apply set_ob_wf; [done|]. intros y w r H. apply lookup_insert_Some in H as [[_ [= <- <-]]|[_ H]]; [split; [apply (w_kn _ W)|apply closed_empty]|by eapply w_ob].
      + intros u Hu. by rewrite Hsk, decide_False.
      + by apply ent_same.
      + intros y. simpl. destruct (decide (y = x)) as [->|Hne]; [rewrite !lookup_insert; split; [by exists h|by eexists]|].
        rewrite !lookup_insert_ne by done. apply (j_ob _ _ _ _ _ _ HJ).
      + apply (j_mset _ _ _ _ _ _ HJ).
      + intros y b w r Hy Hw. simpl in Hy. unfold fresh_ob in Hw. cbn [ob set_ob] in Hw. destruct (decide (y = x)) as [->|Hne].
        * rewrite lookup_insert in Hy. rewrite lookup_insert in Hw. injection Hy as <-. injection Hw as <- <-. right. by eapply (j_thr _ _ _ _ _ _ HJ).
        * rewrite lookup_insert_ne in Hy by done. rewrite lookup_insert_ne in Hw by done. left. eauto.
      + intros i b Hi Hob. rewrite Hskt in Hi. left. exists i. rewrite Hst. split; [by right|done].
      + intros _ y b w r e Hy Hw Hine. assert (y ≠ x) by congruence. eapply cov_o; [simpl; by rewrite lookup_insert_ne|simpl; by rewrite lookup_insert_ne|done].
      + intros _ i b e Hi Hob Hine. rewrite Hst in Hi. apply elem_of_cons in Hi as [->|Hi].
        * right. simpl in Hob. unfold at_ in Hob. case_decide; [subst b|lia].
          eapply cov_o; [simpl; by rewrite lookup_insert|simpl; by rewrite lookup_insert|]. set_solver.
        * left. exists i. by rewrite Hskt.
      + intros _ b n n' Hn Hn' H0. left. change (entry s b = Some n') in Hn'. split; [congruence|]. intros i Hi Hpi. rewrite Hst in Hi.
        apply elem_of_cons in Hi as [->|Hi]; [simpl in Hpi; lia|]. left. exists i. by rewrite Hskt.
    - (* IAbort *)
      injection He as <-. assert (Hin : IAbort x ∈ stack s t) by (rewrite Hst; by left).
      pose proof (making_one P FS cfg eqv good Heq HP HF t0 s t [] HI Hal x _ Hin (at_eq x)) as Hx. set (s' := add_log _ _).
      assert (Hsk : stk_is s s' t rest) by (by apply stk_log, stk_set). assert (Hskt : stack s' t = rest) by (by rewrite Hsk, decide_True).
      assert (Hvs : ∀ y b, vars s' !! y = Some (Some b) ↔ vars s !! y = Some (Some b)).
      { intros y b. simpl. rewrite lookup_delete_Some. split; [by intros [_ ?]|]. intros Hy. split; [congruence|done]. }
      eapply (J_st P FS cfg t0 s s' c c t); try done.
      + apply HJ.
      + intros u Hu. by rewrite Hsk, decide_False.
      + by apply ent_same.
      + intros y. rewrite (j_ob _ _ _ _ _ _ HJ). split; intros [b Hb]; exists b; by apply Hvs.
      + apply (j_mset _ _ _ _ _ _ HJ).
      + intros y b w r Hy Hw. apply Hvs in Hy. left. eauto.
      + intros i b Hi Hob. rewrite Hskt in Hi. left. exists i. rewrite Hst. split; [by right|done].
      + intros _ y b w r e Hy Hw Hine. eapply cov_o; [by apply Hvs|done|done].
      + intros _ i b e Hi Hob Hine. rewrite Hst in Hi. apply elem_of_cons in Hi as [->|Hi]; [simpl in Hob; lia|]. left. exists i. by rewrite Hskt.
      + intros _ b n n' Hn Hn' H0. left. change (entry s b = Some n') in Hn'. split; [congruence|]. intros i Hi Hpi. rewrite Hst in Hi.
        apply elem_of_cons in Hi as [->|Hi]; [simpl in Hpi; lia|]. left. exists i. by rewrite Hskt.
  Qed.
End Exec.
