(** Invariant of [Recursive.v] and its preservation. *)
From Verif Require Export RecursiveSpec Factory.

Section Proofs.
  Context {K V : Type} (body : nat → K → @cprog K V) (trk : bool) (eqv : K → K → bool) (kx : K → V → K).
  (** [den]: the direct recursive definition; [lt]: its dependency order *)
  Context (den : K → V) (lt : K → K → Prop).
  Notation st := (st (K:=K) (V:=V)).
  Notation ent := (ent (K:=K) (V:=V)).
  Implicit Types (s : st) (O H l : list nat) (e : ent) (k : K).

  Notation follows := (follows den lt).
  Notation direct := (direct den).
  Context (Heq : equivalence eqv).
  Context (Hwf : well_founded lt) (Htrans : ∀ k1 k2 k3, lt k1 k2 → lt k2 k3 → lt k1 k3).
  Context (Hlt : ∀ k1 k1' k2 k2', eqv k1 k1' = true → eqv k2 k2' = true → lt k1 k2 → lt k1' k2').
  Context (Hden : ∀ k k', eqv k k' = true → den k = den k').
  Context (Hbody : ∀ n k, follows k (body n k)).
  Context (Hkx : ∀ k, eqv (kx k (den k)) k = true).

  Definition built O s e : Prop :=
    e_val e = Some (den (e_key e)) ∧ (trk = true → 0 < e_ref e) ∧
    ∀ h', h' ∈ e_kids e → ∃ e', ents s !! h' = Some e' ∧ h' ∉ O ∧ lt (e_key e') (e_key e).
  Definition refs H s (h : nat) : nat := occ h H + msum (λ e, occ h (e_kids e)) (ents s).

  (** [O]: entries being constructed; [H]: handles held outside entries *)
  Record Inv O H s : Prop := {
    i_next h : next s ≤ h → ents s !! h = None;
    i_open h : h ∈ O → ∃ k, ents s !! h = Some (Ent k None 0 []);
    i_built h e : ents s !! h = Some e → h ∉ O → built O s e;
    i_held h : h ∈ H → ∃ e, ents s !! h = Some e ∧ h ∉ O;
    i_refs h e : trk = true → ents s !! h = Some e → e_ref e = refs H s h;
    i_uniq h1 h2 e1 e2 : ents s !! h1 = Some e1 → ents s !! h2 = Some e2 → eqv (e_key e1) (e_key e2) = true → h1 = h2;
    i_log : NoDup (log s).*1 ∧
            (∀ h k, (h, k) ∈ log s → h < next s ∧ (h ∉ O) ∧ (trk = false → ∃ e, ents s !! h = Some e ∧ eqv (e_key e) k = true)) ∧
            ∀ h e, ents s !! h = Some e → h ∉ O → h ∈ (log s).*1;
  }.

  (** entries of [s'] that were in [s] have the key they had *)
  Definition kept s s' : Prop :=
    next s ≤ next s' ∧ ∀ h e', h < next s → ents s' !! h = Some e' → ∃ e, ents s !! h = Some e ∧ e_key e' = e_key e.
  Definition there (X : list nat) s s' : Prop :=
    ∀ h e, h ∈ X → ents s !! h = Some e → ∃ e', ents s' !! h = Some e' ∧ e_key e' = e_key e.

  Lemma lt_irrefl k : ¬ lt k k.
  Proof. intros Hk. induction (Hwf k) as [k _ IH]. by apply (IH k Hk). Qed.
  Lemma lt_not_eqv k k' : lt k k' → eqv k' k = true → False.
  Proof. intros Hk E. apply (lt_irrefl k). eapply Hlt; [|exact E|exact Hk]. apply Heq. Qed.

  Lemma inv_perm O H H' s : H ≡ₚ H' → Inv O H s → Inv O H' s.
  Proof.
    intros Hp [? ? ? Hh Hr ? ?]. split; try done.
    - intros h Hin. apply Hh. by rewrite Hp.
    - intros h e Ht He. rewrite (Hr h e Ht He). unfold refs. by rewrite (occ_perm _ _ _ Hp).
  Qed.

  Lemma refs_upd H s h0 e0 e1 h : ents s !! h0 = Some e0 → e_kids e1 = e_kids e0 →
    refs H (set_ents (<[h0:=e1]> (ents s)) s) h = refs H s h.
  Proof.
    intros He Hk. unfold refs. simpl. pose proof (msum_upd (λ e, occ h (e_kids e)) (ents s) h0 e0 e1 He) as Hm.
    simpl in Hm. rewrite Hk in Hm. lia.
  Qed.

  (** changing a count along with the holders *)
  Lemma inv_count O H H' s h e r : Inv O H s → ents s !! h = Some e → h ∉ O →
    (trk = true → 0 < r) → (∀ h', h' ∈ H' → h' = h ∨ h' ∈ H) →
    (trk = true → r + occ h H = e_ref e + occ h H') → (∀ h', h' ≠ h → occ h' H' = occ h' H) →
    Inv O H' (set_ents (<[h:=Ent (e_key e) (e_val e) r (e_kids e)]> (ents s)) s).
  Proof.
    intros HI He HO Hr HH Hocc Hoth. pose proof HI as [Hn Ho Hb Hh Hrf Hu Hl].
    assert (Hlook : ∀ h' e', (<[h:=Ent (e_key e) (e_val e) r (e_kids e)]> (ents s)) !! h' = Some e' →
      ∃ e2, ents s !! h' = Some e2 ∧ e_key e' = e_key e2 ∧ e_val e' = e_val e2 ∧ e_kids e' = e_kids e2 ∧ (h' ≠ h → e' = e2)).
    { intros h' e'. destruct (decide (h = h')) as [<-|Hne].
      - rewrite lookup_insert. intros [= <-]. by exists e.
      - rewrite lookup_insert_ne by done. intros He'. exists e'. by split_and!. }
    assert (Hdom : ∀ h' e2, ents s !! h' = Some e2 → ∃ e', (<[h:=Ent (e_key e) (e_val e) r (e_kids e)]> (ents s)) !! h' = Some e' ∧ e_key e' = e_key e2).
    { intros h' e2 He2. destruct (decide (h = h')) as [<-|Hne].
      - rewrite lookup_insert. eexists. split; [done|]. simpl. congruence.
      - rewrite lookup_insert_ne by done. eauto. }
    split; simpl.
    - intros h' Hh'. rewrite lookup_insert_ne; [by apply Hn|]. intros <-. rewrite Hn in He; [done|done].
    - intros h' Hh'. rewrite lookup_insert_ne; [by apply Ho|]. intros <-. done.
    - intros h' e' He' HO'. destruct (Hlook h' e' He') as (e2&He2&Ek&Ev&Ec&Hne). destruct (Hb h' e2 He2 HO') as (B1&B2&B3).
      split_and!.
      + by rewrite Ev, Ek.
      + destruct (decide (h' = h)) as [->|]; [|rewrite Hne by done; done]. rewrite lookup_insert in He'. injection He' as <-. done.
      + intros h2 Hh2. rewrite Ec in Hh2. destruct (B3 h2 Hh2) as (e3&He3&HO3&Hlt3). destruct (Hdom h2 e3 He3) as (e4&He4&Ek4).
        exists e4. rewrite Ek, Ek4. done.
    - intros h' Hh'. destruct (HH h' Hh') as [->|Hin].
      + rewrite lookup_insert. eauto.
      + destruct (Hh h' Hin) as (e2&He2&HO2). destruct (Hdom h' e2 He2) as (e4&He4&_). eauto.
    - intros h' e' Ht He'. rewrite (refs_upd H' s h e _ h' He) by done. destruct (decide (h' = h)) as [->|Hne].
      + rewrite lookup_insert in He'. injection He' as <-. simpl. specialize (Hocc Ht). pose proof (Hrf h e Ht He) as Hre. unfold refs in *. lia.
      + rewrite lookup_insert_ne in He' by done. rewrite (Hrf h' e' Ht He'). unfold refs. by rewrite Hoth.
    - intros h1 h2 e1 e2 H1 H2 E. destruct (Hlook h1 e1 H1) as (e1'&H1'&E1&_), (Hlook h2 e2 H2) as (e2'&H2'&E2&_).
      eapply Hu; [done|done|]. by rewrite <- E1, <- E2.
    - destruct Hl as (L1&L2&L3). split_and!; [done| |].
      + intros h' k Hk. destruct (L2 h' k Hk) as (L4&L5&L6). split_and!; [done|done|]. intros Ht. destruct (L6 Ht) as (e2&He2&E2).
        destruct (Hdom h' e2 He2) as (e4&He4&Ek4). exists e4. by rewrite Ek4.
      + intros h' e' He' HO'. destruct (Hlook h' e' He') as (e2&He2&_). by eapply L3.
  Qed.

  Lemma add_ref_ok O H s h : trk = true → Inv O H s → (∃ e, ents s !! h = Some e) → h ∉ O →
    ∃ s', add_ref h s = Some s' ∧ Inv O (h :: H) s' ∧ kept s s' ∧ (∀ X, there X s s') ∧ log s' = log s ∧ calls s' = calls s.
  Proof.
    intros Ht HI [e He] HO. unfold add_ref. rewrite He. eexists. split; [done|]. split_and!; simpl; try done.
    - eapply inv_count; [done|done|done|lia| | |].
      + intros h' Hh'. set_solver.
      + intros _. rewrite occ_cons, decide_True by done. lia.
      + intros h' Hne. by rewrite occ_cons, decide_False.
    - split; [done|]. intros h' e2 _ H2. simpl in H2. destruct (decide (h = h')) as [<-|Hne].
      + rewrite lookup_insert in H2. simplify_eq. eauto.
      + rewrite lookup_insert_ne in H2 by done. eauto.
    - intros X h' e1 _ H1. simpl. destruct (decide (h = h')) as [<-|Hne].
      + rewrite lookup_insert. simplify_eq. eauto.
      + rewrite lookup_insert_ne by done. eauto.
  Qed.

  Lemma kept_refl s : kept s s.
  Proof. split; [done|]. eauto. Qed.
  Lemma kept_trans s1 s2 s3 : kept s1 s2 → kept s2 s3 → kept s1 s3.
  Proof.
    intros [N1 K1] [N2 K2]. split; [lia|]. intros h e Hh He. destruct (K2 h e ltac:(lia) He) as (e2&He2&E2).
    destruct (K1 h e2 Hh He2) as (e1&He1&E1). exists e1. split; congruence.
  Qed.
  Lemma there_refl X s : there X s s.
  Proof. intros h e _ He. eauto. Qed.
  Lemma there_trans X s1 s2 s3 : there X s1 s2 → there X s2 s3 → there X s1 s3.
  Proof. intros T1 T2 h e Hh He. destruct (T1 h e Hh He) as (e1&He1&E1). destruct (T2 h e1 Hh He1) as (e2&He2&E2). exists e2. split; congruence. Qed.
  Lemma there_mono X Y s s' : (∀ h, h ∈ X → h ∈ Y) → there Y s s' → there X s s'.
  Proof. intros Hs T h e Hh. apply T. by apply Hs. Qed.

  (** the last handle: the entry goes, its members are to be released *)
  Lemma inv_erase O H s h e : trk = true → Inv O (h :: H) s → ents s !! h = Some e → e_ref e = 1 →
    Inv O (e_kids e ++ H) (set_ents (delete h (ents s)) s).
  Proof.
    intros Ht HI He He1. pose proof HI as [Hn Ho Hb Hh Hrf Hu Hl].
    destruct (Hh h ltac:(set_solver)) as (e'&He'&HhO). simplify_eq.
    pose proof (Hrf h e Ht He) as Hre. rewrite He1 in Hre. unfold refs in Hre. rewrite occ_cons, decide_True in Hre by done.
    assert (Hz : occ h H = 0 ∧ msum (λ e, occ h (e_kids e)) (ents s) = 0) by lia. destruct Hz as [HzH Hzk].
    assert (Hnk : ∀ h' e', ents s !! h' = Some e' → h ∉ e_kids e').
    { intros h' e' Hh' Hin%occ_pos. pose proof (msum_ge (λ e, occ h (e_kids e)) (ents s) h' e' Hh') as Hg. simpl in Hg. lia. }
    assert (HnH : h ∉ H) by (intros Hin%occ_pos; lia).
    pose proof (Hb h e He HhO) as (_&_&Hkids).
    split; simpl.
    - intros h' Hh'. rewrite lookup_delete_None. right. by apply Hn.
    - intros h' Hh'. rewrite lookup_delete_ne by congruence. by apply Ho.
    - intros h' e' [Hne He'']%lookup_delete_Some HO'. destruct (Hb h' e' He'' HO') as (B1&B2&B3). split_and!; [done|done|].
      intros h2 Hh2. destruct (B3 h2 Hh2) as (e2&He2&HO2&Hl2). exists e2. split_and!; try done. simpl. rewrite lookup_delete_ne; [done|].
      intros <-. exact (Hnk _ _ He'' Hh2).
    - intros h' [Hin|Hin]%elem_of_app.
      + destruct (Hkids h' Hin) as (e2&He2&HO2&_). exists e2. split; [|done]. rewrite lookup_delete_ne; [done|]. intros <-. exact (Hnk _ _ He Hin).
      + destruct (Hh h' ltac:(set_solver)) as (e2&He2&HO2). exists e2. split; [|done]. rewrite lookup_delete_ne; [done|]. intros ->. done.
    - intros h' e' _ [Hne He'']%lookup_delete_Some. rewrite (Hrf h' e' Ht He''). unfold refs. simpl.
      rewrite occ_cons, decide_False, occ_app by done.
      pose proof (msum_delete (λ e, occ h' (e_kids e)) (ents s) h e He) as Hm. simpl in Hm. lia.
    - intros h1 h2 e1 e2 [_ H1]%lookup_delete_Some [_ H2]%lookup_delete_Some. by eapply Hu.
    - destruct Hl as (L1&L2&L3). split_and!; [done| |].
      + intros h' k Hk. destruct (L2 h' k Hk) as (L4&L5&L6). split_and!; [done|done|]. intros Hf. congruence.
      + intros h' e' [_ He'']%lookup_delete_Some HO'. by eapply L3.
  Qed.

  Lemma release_ok n : ∀ l O H s, Inv O (l ++ H) s → fuel_for l s ≤ n →
    ∃ s', release trk n l s = Some s' ∧ Inv O H s' ∧ kept s s' ∧ next s' = next s ∧ log s' = log s ∧ calls s' = calls s.
  Proof.
    assert (Hno : trk = false → ∀ l O H s, Inv O (l ++ H) s → Inv O H s).
    { intros Ht l O H s [? ? ? Hh ? ? ?]. split; try done.
      - intros h Hin. apply Hh. set_solver.
      - congruence. }
    destruct trk eqn:Ht; cycle 1.
    { intros l O H s HI _. exists s. split; [by destruct n|]. split; [eapply Hno; [done|exact HI]|]. split; [apply kept_refl|done]. }
    clear Hno. induction n as [|n IH]; intros l O H s HI Hf; (destruct l as [|h l]; [exists s; split; [done|]; split; [exact HI|]; split; [apply kept_refl|done]|]).
    { unfold fuel_for in Hf. simpl in Hf. lia. }
    simpl. destruct (i_held _ _ _ HI h ltac:(set_solver)) as (e&He&HO). rewrite He.
    pose proof (i_refs _ _ _ HI h e Ht He) as Hr. unfold refs in Hr. simpl in Hr. rewrite occ_cons, decide_True in Hr by done.
    pose proof (msum_delete (λ e, length (e_kids e)) (ents s) h e He) as Hmd. simpl in Hmd.
    unfold fuel_for in Hf. simpl in Hf.
    destruct (e_ref e) as [|[|r]] eqn:Er; [lia| |].
    - pose proof (inv_erase O (l ++ H) s h e Ht HI He Er) as HI'. rewrite app_assoc in HI'.
      destruct (IH (e_kids e ++ l) O H _ HI') as (s'&Hs'&HI''&Hk&Hnx&Hl&Hc).
      { unfold fuel_for. simpl. rewrite app_length. lia. }
      exists s'. split_and!; try done. destruct Hk as [Hk1 Hk2]. split; [done|]. intros h' e2 Hh' H2.
      destruct (Hk2 h' e2 Hh' H2) as (e1&H1&?). simpl in H1. apply lookup_delete_Some in H1 as [_ H1]. eauto.
    - assert (HI' : Inv O (l ++ H) (set_ents (<[h:=Ent (e_key e) (e_val e) (S r) (e_kids e)]> (ents s)) s)).
      { eapply inv_count; [exact HI|done|done|lia| | |].
        - intros h' Hin. right. set_solver.
        - intros _. rewrite Er. simpl. rewrite occ_cons, decide_True by done. lia.
        - intros h' Hne. simpl. by rewrite occ_cons, decide_False. }
      destruct (IH l O H _ HI') as (s'&Hs'&HI''&Hk&Hnx&Hl&Hc).
      { unfold fuel_for. simpl. pose proof (msum_upd (λ e, length (e_kids e)) (ents s) h e (Ent (e_key e) (e_val e) (S r) (e_kids e)) He) as Hm. simpl in Hm. lia. }
      exists s'. split_and!; try done. destruct Hk as [Hk1 Hk2]. split; [done|]. intros h' e2 Hh' H2.
      destruct (Hk2 h' e2 Hh' H2) as (e1&H1&?). simpl in H1. destruct (decide (h = h')) as [<-|Hne].
      + rewrite lookup_insert in H1. injection H1 as <-. eauto.
      + rewrite lookup_insert_ne in H1 by done. eauto.
  Qed.

  Lemma below_next O H s h e : Inv O H s → ents s !! h = Some e → h < next s.
  Proof. intros HI He. destruct (decide (h < next s)); [done|]. rewrite (i_next _ _ _ HI) in He by lia. done. Qed.
  Lemma kept_there X O H s s' : Inv O H s → kept s s' → (∀ h, h ∈ X → is_Some (ents s' !! h)) → there X s s'.
  Proof.
    intros HI [_ Hk] Hx h e Hh He. destruct (Hx h Hh) as [e' He']. destruct (Hk h e' ltac:(by eapply below_next) He') as (e1&He1&E). simplify_eq. eauto.
  Qed.
  Lemma drop_ok l O H s : Inv O (l ++ H) s →
    ∃ s', let_go trk l s = Some s' ∧ Inv O H s' ∧ kept s s' ∧ there (H ++ O) s s' ∧ log s' = log s ∧ calls s' = calls s.
  Proof.
    intros HI. destruct (release_ok _ l O H s HI (le_n _)) as (s'&Hs&HI'&Hk&Hn&Hl&Hc). exists s'. split_and!; try done.
    eapply kept_there; [exact HI|done|]. intros h [Hh|Hh]%elem_of_app.
    - destruct (i_held _ _ _ HI' h Hh) as (e'&He'&_). eauto.
    - destruct (i_open _ _ _ HI' h Hh) as (k&He'). eauto.
  Qed.

  Lemma add_refs_ok l : ∀ O H s, trk = true → Inv O H s → (∀ h, h ∈ l → (∃ e, ents s !! h = Some e) ∧ h ∉ O) →
    ∃ s', add_refs l s = Some s' ∧ Inv O (l ++ H) s' ∧ kept s s' ∧ (∀ X, there X s s') ∧ log s' = log s ∧ calls s' = calls s.
  Proof.
    induction l as [|h l IH]; intros O H s Ht HI Hl; simpl.
    { exists s. split_and!; try done; [apply kept_refl|]. intros X. apply there_refl. }
    destruct (Hl h) as [He HO]; [set_solver|].
    destruct (add_ref_ok O H s h Ht HI He HO) as (s1&->&HI1&Hk1&Ht1&Hl1&Hc1).
    destruct (IH O (h :: H) s1 Ht HI1) as (s2&->&HI2&Hk2&Ht2&Hl2&Hc2).
    { intros h' Hh'. destruct (Hl h') as [[e' He'] HO']; [set_solver|]. split; [|done].
      destruct (Ht1 [h'] h' e') as (e2&He2&_); [set_solver|done|eauto]. }
    exists s2. split_and!; try congruence.
    - eapply inv_perm; [|exact HI2]. by rewrite Permutation_middle.
    - by eapply kept_trans.
    - intros X. eapply there_trans; [apply Ht1|apply Ht2].
  Qed.

  (** ** opening and closing an entry *)
  Lemma inv_calls O H s n : Inv O H s → Inv O H (St (ents s) (next s) n (log s)).
  Proof. intros [? ? ? ? ? ? ?]. by split. Qed.

  Lemma inv_new O H s k : Inv O H s → (∀ h e, ents s !! h = Some e → eqv (e_key e) k = false) →
    Inv (next s :: O) H (St (<[next s:=Ent k None 0 []]> (ents s)) (S (next s)) (calls s) (log s)).
  Proof.
    intros HI Hnone. pose proof HI as [Hn Ho Hb Hh Hrf Hu Hl]. pose proof (Hn (next s) (le_n _)) as Hnn.
    assert (Hlt' : ∀ h e, ents s !! h = Some e → h ≠ next s) by (intros h e He ->; congruence).
    split; simpl.
    - intros h Hh'. rewrite lookup_insert_ne by lia. apply Hn. lia.
    - intros h [->|Hin]%elem_of_cons; [rewrite lookup_insert; eauto|]. destruct (Ho h Hin) as [k' Hk'].
      exists k'. rewrite lookup_insert_ne; [done|]. apply not_eq_sym. by eapply Hlt'.
    - intros h e He HO. apply not_elem_of_cons in HO as [Hne HO]. rewrite lookup_insert_ne in He by done.
      destruct (Hb h e He HO) as (B1&B2&B3). split_and!; [done|done|]. intros h' Hh'. destruct (B3 h' Hh') as (e'&He'&HO'&Hl').
      exists e'. simpl. pose proof (Hlt' h' e' He'). rewrite lookup_insert_ne by done. split_and!; [done| |done]. by apply not_elem_of_cons.
    - intros h Hin. destruct (Hh h Hin) as (e&He&HO). exists e. pose proof (Hlt' h e He). rewrite lookup_insert_ne by done. split; [done|]. by apply not_elem_of_cons.
    - intros h e Ht He. unfold refs. simpl. rewrite msum_new by done. simpl. destruct (decide (next s = h)) as [<-|Hne].
      + rewrite lookup_insert in He. injection He as <-. simpl. symmetry.
        assert (occ (next s) H = 0) as ->.
        { destruct (occ (next s) H) eqn:E; [done|]. destruct (Hh (next s)) as (e&He&_); [apply occ_pos; lia|congruence]. }
        apply msum_zero. intros h e He. destruct (occ (next s) (e_kids e)) eqn:E; [done|].
        assert (Hin : next s ∈ e_kids e) by (apply occ_pos; lia). destruct (decide (h ∈ O)) as [HO|HO].
        * destruct (Ho h HO) as [k' Hk']. rewrite He in Hk'. injection Hk' as ->. simpl in Hin. by apply elem_of_nil in Hin.
        * destruct (Hb h e He HO) as (_&_&B3). destruct (B3 _ Hin) as (e'&He'&_). congruence.
      + rewrite lookup_insert_ne in He by done. by rewrite (Hrf h e Ht He).
    - intros h1 h2 e1 e2 H1 H2 E. destruct (decide (next s = h1)) as [<-|N1], (decide (next s = h2)) as [<-|N2]; [done|..].
      + rewrite lookup_insert in H1. rewrite lookup_insert_ne in H2 by done. injection H1 as <-. simpl in E.
        apply (eqv_sym _ Heq) in E. rewrite (Hnone _ _ H2) in E. done.
      + rewrite lookup_insert in H2. rewrite lookup_insert_ne in H1 by done. injection H2 as <-. simpl in E. rewrite (Hnone _ _ H1) in E. done.
      + rewrite lookup_insert_ne in H1 by done. rewrite lookup_insert_ne in H2 by done. by eapply Hu.
    - destruct Hl as (L1&L2&L3). split_and!; [done| |].
      + intros h k' Hin. destruct (L2 h k' Hin) as (L4&L5&L6). split_and!; [lia| |].
        * apply not_elem_of_cons. split; [lia|done].
        * intros Hf. destruct (L6 Hf) as (e&He&E). exists e. rewrite lookup_insert_ne by lia. done.
      + intros h e He HO. apply not_elem_of_cons in HO as [Hne HO]. rewrite lookup_insert_ne in He by done. by eapply L3.
  Qed.

  Lemma inv_close O H s h k kq v kids r : h ∉ O → Inv (h :: O) (kids ++ H) s → ents s !! h = Some (Ent k None 0 []) →
    eqv k kq = true → v = den k → (∀ h', h' ∈ kids → ∃ e, ents s !! h' = Some e ∧ lt (e_key e) k) → (trk = true → r = 1) →
    Inv O (h :: H) (St (<[h:=Ent (kx k v) (Some v) r kids]> (ents s)) (next s) (calls s) ((h, kq) :: log s)).
  Proof.
    intros HhO HI He Hkq -> Hkids Hr. pose proof HI as [Hn Ho Hb Hh Hrf Hu Hl].
    assert (Hheld : ∀ h', h' ∈ kids ++ H → h' ≠ h). { intros h' Hin ->. destruct (Hh h Hin) as (?&_&?). set_solver. }
    assert (HnH : h ∉ kids ∧ h ∉ H) by (split; intros Hin; apply (Hheld h); set_solver).
    assert (Hnk : ∀ h' e', ents s !! h' = Some e' → h' ≠ h → h ∉ e_kids e').
    { intros h' e' He' Hne Hin. destruct (decide (h' ∈ O)) as [HO|HO].
      - destruct (Ho h' ltac:(set_solver)) as [k' Hk']. rewrite He' in Hk'. injection Hk' as ->. simpl in Hin. by apply elem_of_nil in Hin.
      - destruct (Hb h' e' He' ltac:(by apply not_elem_of_cons)) as (_&_&B3). destruct (B3 h Hin) as (_&_&?&_). set_solver. }
    split; simpl.
    - intros h' Hh'. rewrite lookup_insert_ne; [by apply Hn|]. intros <-. rewrite Hn in He; done.
    - intros h' Hin. destruct (Ho h' ltac:(set_solver)) as [k' Hk']. exists k'. rewrite lookup_insert_ne; [done|]. intros <-. done.
    - intros h' e' He' HO'. destruct (decide (h = h')) as [<-|Hne].
      + rewrite lookup_insert in He'. injection He' as <-. split_and!; simpl.
        * by rewrite (Hden _ _ (Hkx k)).
        * intros Ht. rewrite (Hr Ht). lia.
        * intros h2 Hh2. destruct (Hkids h2 Hh2) as (e2&He2&Hl2). exists e2. rewrite lookup_insert_ne by (intros <-; by destruct HnH). split_and!; [done| |].
          -- destruct (Hh h2 ltac:(set_solver)) as (?&_&?). set_solver.
          -- eapply Hlt; [apply (eqv_refl _ Heq)| |exact Hl2]. apply (eqv_sym _ Heq), Hkx.
      + rewrite lookup_insert_ne in He' by done. destruct (Hb h' e' He' ltac:(by apply not_elem_of_cons)) as (B1&B2&B3). split_and!; [done|done|].
        intros h2 Hh2. destruct (B3 h2 Hh2) as (e2&He2&HO2&Hl2). exists e2. simpl. apply not_elem_of_cons in HO2 as [??].
        rewrite lookup_insert_ne by done. done.
    - intros h' [->|Hin]%elem_of_cons; [rewrite lookup_insert; eauto|].
      destruct (Hh h' ltac:(set_solver)) as (e'&He'&HO'). apply not_elem_of_cons in HO' as [??]. exists e'. by rewrite lookup_insert_ne.
    - intros h' e' Ht He'. unfold refs. simpl. pose proof (msum_upd (λ e, occ h' (e_kids e)) (ents s) h _ (Ent (kx k (den k)) (Some (den k)) r kids) He) as Hm.
      simpl in Hm. rewrite occ_nil in Hm. destruct (decide (h = h')) as [<-|Hne].
      + rewrite lookup_insert in He'. injection He' as <-. simpl. rewrite (Hr Ht) in Hm |- *. rewrite occ_cons, decide_True by done.
        assert (occ h H = 0) by (destruct (occ h H) eqn:E; [done|]; destruct (proj2 HnH); apply occ_pos; lia).
        assert (occ h kids = 0) by (destruct (occ h kids) eqn:E; [done|]; destruct (proj1 HnH); apply occ_pos; lia).
        pose proof (Hrf h _ Ht He) as Hr0. simpl in Hr0. unfold refs in Hr0. lia.
      + rewrite lookup_insert_ne in He' by done. rewrite (Hrf h' e' Ht He'). unfold refs. rewrite occ_app, occ_cons, decide_False by done. lia.
    - assert (Hk' : eqv (kx k (den k)) k = true) by apply Hkx.
      intros h1 h2 e1 e2 H1 H2 E. destruct (decide (h = h1)) as [<-|N1], (decide (h = h2)) as [<-|N2]; [done|..].
      + rewrite lookup_insert in H1. rewrite lookup_insert_ne in H2 by done. injection H1 as <-. simpl in E.
        eapply Hu; [exact He|exact H2|]. simpl. eapply (eqv_trans _ Heq); [|exact E]. by apply (eqv_sym _ Heq).
      + rewrite lookup_insert in H2. rewrite lookup_insert_ne in H1 by done. injection H2 as <-. simpl in E.
        eapply Hu; [exact H1|exact He|]. simpl. eapply (eqv_trans _ Heq); [exact E|done].
      + rewrite lookup_insert_ne in H1 by done. rewrite lookup_insert_ne in H2 by done. by eapply Hu.
    - destruct Hl as (L1&L2&L3). split_and!.
      + constructor; [|done]. intros Hin. apply elem_of_list_fmap in Hin as ([h' k']&E&Hin). simpl in E. subst h'.
        destruct (L2 h k' Hin) as (_&?&_). set_solver.
      + intros h' k' [E|Hin]%elem_of_cons.
        * injection E as -> ->. split_and!; [by eapply below_next|done|]. intros _. rewrite lookup_insert. eexists. split; [done|]. simpl.
          eapply (eqv_trans _ Heq); [apply Hkx|done].
        * destruct (L2 h' k' Hin) as (L4&L5&L6). apply not_elem_of_cons in L5 as [??]. split_and!; [done|done|]. intros Hf. rewrite lookup_insert_ne by done. by apply L6.
      + intros h' e' He' HO'. destruct (decide (h = h')) as [<-|Hne]; [left|]. rewrite lookup_insert_ne in He' by done. right.
        eapply L3; [done|]. by apply not_elem_of_cons.
  Qed.

  Lemma inv_abort O H s h : h ∉ O → Inv (h :: O) H s → Inv O H (set_ents (delete h (ents s)) s).
  Proof.
    intros HhO HI. pose proof HI as [Hn Ho Hb Hh Hrf Hu Hl]. destruct (Ho h ltac:(set_solver)) as [k He].
    split; simpl.
    - intros h' Hh'. rewrite lookup_delete_None. right. by apply Hn.
    - intros h' Hin. destruct (Ho h' ltac:(set_solver)) as [k' Hk']. exists k'. rewrite lookup_delete_ne; [done|]. by intros <-.
    - intros h' e' [Hne He']%lookup_delete_Some HO'. destruct (Hb h' e' He' ltac:(by apply not_elem_of_cons)) as (B1&B2&B3). split_and!; [done|done|].
      intros h2 Hh2. destruct (B3 h2 Hh2) as (e2&He2&HO2&Hl2). apply not_elem_of_cons in HO2 as [??]. exists e2. simpl. by rewrite lookup_delete_ne.
    - intros h' Hin. destruct (Hh h' Hin) as (e'&He'&HO'). apply not_elem_of_cons in HO' as [??]. exists e'. by rewrite lookup_delete_ne.
    - intros h' e' Ht [Hne He']%lookup_delete_Some. rewrite (Hrf h' e' Ht He'). unfold refs. simpl.
      pose proof (msum_delete (λ e, occ h' (e_kids e)) (ents s) h _ He) as Hm. simpl in Hm. rewrite ?occ_nil in Hm. lia.
    - intros h1 h2 e1 e2 [_ H1]%lookup_delete_Some [_ H2]%lookup_delete_Some. by eapply Hu.
    - destruct Hl as (L1&L2&L3). split_and!; [done| |].
      + intros h' k' Hin. destruct (L2 h' k' Hin) as (L4&L5&L6). apply not_elem_of_cons in L5 as [??]. split_and!; [done|done|].
        intros Hf. destruct (L6 Hf) as (e'&He'&E). exists e'. by rewrite lookup_delete_ne.
      + intros h' e' [Hne He']%lookup_delete_Some HO'. eapply L3; [done|]. by apply not_elem_of_cons.
  Qed.

  (** ** constructors and creation *)
  Definition cres O H k s (r : res nat) : Prop :=
    match r with
    | Ret h s' => Inv O (h :: H) s' ∧ kept s s' ∧ there (H ++ O) s s' ∧ ∃ e, ents s' !! h = Some e ∧ eqv (e_key e) k = true
    | Thr s' => Inv O H s' ∧ kept s s' ∧ there (H ++ O) s s'
    | _ => False
    end.
  Definition pres O H k s (r : res (V * list nat)) : Prop :=
    match r with
    | Ret (v, kids) s' => v = den k ∧ Inv O (kids ++ H) s' ∧ kept s s' ∧ there (H ++ O) s s' ∧
        ∀ h, h ∈ kids → ∃ e, ents s' !! h = Some e ∧ lt (e_key e) k
    | Thr s' => Inv O H s' ∧ kept s s' ∧ there (H ++ O) s s'
    | _ => False
    end.
  Notation create := (create body trk eqv kx).
  Definition above k O s : Prop := ∀ o e, o ∈ O → ents s !! o = Some e → lt k (e_key e).
  Definition works k : Prop := ∀ O H s, Inv O H s → above k O s →
    ∃ r N, cres O H k s r ∧ ∀ n, N ≤ n → create n k s = r.

  Lemma there_dom O H s s' X h e : there X s s' → Inv O H s → h ∈ X → ents s' !! h = Some e → kept s s' →
    h < next s → ∃ e0, ents s !! h = Some e0 ∧ e_key e0 = e_key e.
  Proof. intros _ _ _ He [_ Hk] Hh. destruct (Hk h e Hh He) as (e0&?&?). exists e0. by split. Qed.

  Lemma run_prog_ok k0 (IH : ∀ k, lt k k0 → works k) p : follows k0 p → ∀ loc O H s,
    Inv O (loc ++ H) s → (∀ h, h ∈ loc → ∃ e, ents s !! h = Some e ∧ lt (e_key e) k0) →
    (∀ o e, o ∈ O → ents s !! o = Some e → e_key e = k0 ∨ lt k0 (e_key e)) →
    ∃ r N, pres O H k0 s r ∧ ∀ n, N ≤ n → run_prog trk (create n) p loc s = r.
  Proof.
    induction p as [v keep| |k f IHp|i p IHp]; intros Hf loc O H s HI Hloc Hab; cbn [run_prog].
    - set (kids := omap (λ i, loc !! i) keep).
      assert (Hkl : ∀ h, h ∈ kids → h ∈ loc).
      { intros h Hh. apply elem_of_list_omap in Hh as (i&_&Hi). by eapply elem_of_list_lookup_2. }
      destruct trk eqn:Ht.
      + destruct (add_refs_ok kids O (loc ++ H) s Ht HI) as (s1&->&HI1&Hk1&Ht1&_&_).
        { intros h Hh. destruct (Hloc h (Hkl h Hh)) as (e&He&_). split; [eauto|].
          by destruct (i_held _ _ _ HI h ltac:(apply elem_of_app; left; by apply Hkl)) as (_&_&?). }
        destruct (drop_ok loc O (kids ++ H) s1) as (s2&Hd&HI2&Hk2&Ht2&_).
        { eapply inv_perm; [|exact HI1]. by rewrite !(assoc_L (++)), (comm (++) kids). }
        rewrite Ht in Hd. rewrite Hd. exists (Ret (v, kids) s2), 0. split; [|done]. split_and!; [exact Hf|done|by eapply kept_trans| |].
        * eapply there_trans; [apply Ht1|]. eapply there_mono; [|exact Ht2]. set_solver.
        * intros h Hh. destruct (Hloc h (Hkl h Hh)) as (e&He&Hl). destruct (Ht1 [h] h e ltac:(set_solver) He) as (e1&He1&E1).
          destruct (Ht2 h e1 ltac:(set_solver) He1) as (e2&He2&E2). exists e2. split; [done|]. congruence.
      + assert (Hd : let_go false loc s = Some s) by (unfold let_go; by destruct (fuel_for loc s)).
        rewrite Hd. exists (Ret (v, kids) s), 0. split; [|done]. split_and!; [exact Hf| |apply kept_refl|apply there_refl|].
        * pose proof HI as [? ? ? Hh ? ? ?]. split; try done; [|congruence]. intros h Hin. apply Hh. set_solver.
        * intros h Hh. by apply Hloc, Hkl.
    - destruct (drop_ok loc O H s HI) as (s1&->&HI1&Hk1&Ht1&_). exists (Thr s1), 0. by split.
    - destruct Hf as [Hlk Hf]. destruct (IH k Hlk O (loc ++ H) s HI) as (r&N&Hr&Hn).
      { intros o e Ho He. destruct (Hab o e Ho He) as [->|]; [done|]. by eapply Htrans. }
      destruct r as [h s1|s1| |]; [| |done|done].
      + destruct Hr as (HI1&Hk1&Ht1&e&He&Ee).
        assert (HhO : h ∉ O) by (by destruct (i_held _ _ _ HI1 h ltac:(set_solver)) as (_&_&?)).
        destruct (i_built _ _ _ HI1 h e He HhO) as (Hv&_).
        destruct (IHp (den k) Hf (loc ++ [h]) O H s1) as (r&N'&Hr&Hn').
        * eapply inv_perm; [|exact HI1]. rewrite <- (assoc_L (++)). simpl. by rewrite Permutation_middle.
        * intros h' [Hh'|Hh']%elem_of_app.
          -- destruct (Hloc h' Hh') as (e'&He'&Hl'). destruct (Ht1 h' e' ltac:(set_solver) He') as (e2&He2&E2). exists e2. split; [done|]. congruence.
          -- apply elem_of_list_singleton in Hh' as ->. exists e. split; [done|]. eapply Hlt; [|apply (eqv_refl _ Heq)|exact Hlk]. by apply (eqv_sym _ Heq).
        * intros o e' Ho He'. destruct (i_open _ _ _ HI o Ho) as [k' Hk']. destruct (Ht1 o _ ltac:(set_solver) Hk') as (e2&He2&E2).
          simplify_eq. rewrite E2. eapply Hab; done.
        * exists r, (N `max` N'). split.
          -- destruct r as [[v kids] s2|s2| |]; [| |done|done].
             ++ destruct Hr as (?&?&Hk2&Ht2&?). split_and!; try done; [by eapply kept_trans|].
                eapply there_trans; [eapply there_mono; [|exact Ht1]; set_solver|done].
             ++ destruct Hr as (?&Hk2&Ht2). split_and!; try done; [by eapply kept_trans|].
                eapply there_trans; [eapply there_mono; [|exact Ht1]; set_solver|done].
          -- intros n Hle. rewrite Hn by lia. rewrite He. destruct e as [ke ve re ce]. simpl in Hv. rewrite Hv. simpl in Ee.
             rewrite (Hden ke k Ee). apply Hn'. lia.
      + destruct Hr as (HI1&Hk1&Ht1). destruct (drop_ok loc O H s1 HI1) as (s2&Hd&HI2&Hk2&Ht2&_).
        exists (Thr s2), N. split.
        * split_and!; [done|by eapply kept_trans|]. eapply there_trans; [eapply there_mono; [|exact Ht1]; set_solver|done].
        * intros n Hle. by rewrite Hn, Hd by lia.
    - destruct (loc !! i) as [h|] eqn:Ei; [|by apply IHp].
      assert (Hp : loc ≡ₚ h :: delete i loc) by (by apply delete_Permutation).
      destruct (drop_ok [h] O (delete i loc ++ H) s) as (s1&->&HI1&Hk1&Ht1&_).
      { eapply inv_perm; [|exact HI]. exact (Permutation_app_tail H Hp). }
      destruct (IHp Hf (delete i loc) O H s1 HI1) as (r&N&Hr&Hn).
      * intros h' Hh'. assert (h' ∈ loc) as Hin by (rewrite Hp; set_solver). destruct (Hloc h' Hin) as (e&He&Hl).
        destruct (Ht1 h' e ltac:(set_solver) He) as (e2&He2&E2). exists e2. split; [done|]. congruence.
      * intros o e' Ho He'. destruct (i_open _ _ _ HI o Ho) as [k' Hk']. destruct (Ht1 o _ ltac:(set_solver) Hk') as (e2&He2&E2).
        simplify_eq. rewrite E2. eapply Hab; done.
      * exists r, N. split; [|done]. destruct r as [[v kids] s2|s2| |]; [| |done|done].
        -- destruct Hr as (?&?&Hk2&Ht2&?). split_and!; try done; [by eapply kept_trans|].
           eapply there_trans; [eapply there_mono; [|exact Ht1]; set_solver|done].
        -- destruct Hr as (?&Hk2&Ht2). split_and!; try done; [by eapply kept_trans|].
           eapply there_trans; [eapply there_mono; [|exact Ht1]; set_solver|done].
  Qed.

  Lemma find_spec s k : match Recursive.find eqv s k with
    | Some h => ∃ e, ents s !! h = Some e ∧ eqv (e_key e) k = true
    | None => ∀ h e, ents s !! h = Some e → eqv (e_key e) k = false end.
  Proof.
    unfold Recursive.find. destruct (filter _ (map_to_list (ents s))) as [|[h e] l] eqn:E; simpl.
    - intros h e He. destruct (eqv (e_key e) k) eqn:Ek; [|done].
      assert ((h, e) ∈ filter (λ p : nat * ent, eqv (e_key p.2) k = true) (map_to_list (ents s))) as Hin.
      { apply elem_of_list_filter. split; [done|]. by apply elem_of_map_to_list. }
      rewrite E in Hin. by apply elem_of_nil in Hin.
    - assert ((h, e) ∈ filter (λ p : nat * ent, eqv (e_key p.2) k = true) (map_to_list (ents s))) as Hin by (rewrite E; left).
      apply elem_of_list_filter in Hin as [Hk Hin%elem_of_map_to_list]. eauto.
  Qed.

  Lemma create_ok k : works k.
  Proof.
    induction (Hwf k) as [k _ IH]. intros O H s HI Hab. pose proof (find_spec s k) as Hfind.
    destruct (Recursive.find eqv s k) as [h|] eqn:Ef.
    - destruct Hfind as (e&He&Ek).
      assert (HhO : h ∉ O). { intros Hin. by eapply lt_not_eqv; [apply (Hab h e Hin He)|]. }
      destruct (i_built _ _ _ HI h e He HhO) as (Hv&_).
      destruct trk eqn:Ht.
      + destruct (add_ref_ok O H s h Ht HI ltac:(eauto) HhO) as (s1&Ha&HI1&Hk1&Ht1&_).
        exists (Ret h s1), 1. split.
        * split_and!; [done|done|apply Ht1|]. destruct (Ht1 [h] h e ltac:(set_solver) He) as (e1&He1&E1). exists e1. by rewrite E1.
        * intros [|n] Hle; [lia|]. simpl. rewrite Ef. unfold visit. rewrite He. destruct e as [? [?|] ? ?]; [|done]. by rewrite Ha.
      + exists (Ret h s), 1. split.
        * split_and!; [|apply kept_refl|apply there_refl|eauto]. pose proof HI as [? ? ? Hh ? ? ?]. split; try done; [|congruence].
          intros h' [->|Hin]%elem_of_cons; [eauto|by apply Hh].
        * intros [|n] Hle; [lia|]. simpl. rewrite Ef. unfold visit. rewrite He. by destruct e as [? [?|] ? ?].
    - set (s1 := St (<[next s:=Ent k None 0 []]> (ents s)) (S (next s)) (calls s) (log s)).
      pose proof (inv_new O H s k HI Hfind) as HI1. fold s1 in HI1.
      assert (HhO : next s ∉ O). { intros Hin. destruct (i_open _ _ _ HI _ Hin) as [k' Hk']. rewrite (i_next _ _ _ HI) in Hk' by lia. done. }
      assert (Hlow : ∀ h e, ents s !! h = Some e → h ≠ next s). { intros h e He ->. rewrite (i_next _ _ _ HI) in He by lia. done. }
      set (s1' := St (ents s1) (next s1) (S (calls s1)) (log s1)).
      destruct (run_prog_ok k IH (body (calls s1) k) (Hbody _ _) [] (next s :: O) H s1') as (r&N&Hr&Hn).
      { by apply inv_calls. }
      { intros h Hh. by apply elem_of_nil in Hh. }
      { intros o e [->|Ho]%elem_of_cons He; simpl in He.
        - rewrite lookup_insert in He. injection He as <-. by left.
        - destruct (i_open _ _ _ HI o Ho) as [k' Hk']. right. eapply Hab; [done|].
          rewrite lookup_insert_ne in He; [done|]. intros <-. done. }
      assert (Hk01 : kept s s1').
      { split; [simpl; lia|]. intros h e Hh He. simpl in He. rewrite lookup_insert_ne in He by lia. eauto. }
      assert (Ht01 : there (H ++ O) s s1').
      { intros h e _ He. exists e. simpl. rewrite lookup_insert_ne; [done|]. apply not_eq_sym. by eapply Hlow. }
      assert (H1h : ents s1 !! next s = Some (Ent k None 0 [])) by (simpl; by rewrite lookup_insert).
      destruct r as [[v kids] s2|s2| |]; [| |done|done].
      + destruct Hr as (Hv&HI2&Hk2&Ht2&Hkids).
        assert (H2h : ents s2 !! next s = Some (Ent k None 0 [])).
        { destruct (i_open _ _ _ HI2 (next s) ltac:(set_solver)) as [k' Hk']. destruct (Ht2 (next s) _ ltac:(set_solver) H1h) as (e2&He2&E2).
          rewrite Hk' in He2. injection He2 as <-. simpl in E2. by subst k'. }
        pose proof (λ r Hr, inv_close O H s2 (next s) k k v kids r HhO HI2 H2h (eqv_refl _ Heq k) Hv Hkids Hr) as Hclose.
        assert (Hfin : ∀ r, (trk = true → r = 1) → cres O H k s (Ret (next s) (St (<[next s:=Ent (kx k v) (Some v) r kids]> (ents s2)) (next s2) (calls s2) ((next s, k) :: log s2)))).
        { intros r Hr'. split_and!.
          - by apply Hclose.
          - pose proof (kept_trans _ _ _ Hk01 Hk2) as [Hkn Hke]. split; [done|]. intros h e Hh He. simpl in He.
            rewrite lookup_insert_ne in He by lia. by apply Hke.
          - intros h e Hin He. destruct (there_trans (H ++ O) s s1' s2 Ht01 ltac:(eapply there_mono; [|exact Ht2]; set_solver) h e Hin He) as (e2&He2&E2).
            exists e2. simpl. rewrite lookup_insert_ne; [done|]. apply not_eq_sym. by eapply Hlow.
          - eexists. simpl. rewrite lookup_insert. split; [done|]. simpl. rewrite Hv. apply Hkx. }
        destruct trk eqn:Ht.
        * eexists _, (S N). split; [exact (Hfin 1 ltac:(done))|]. intros [|n] Hle; [lia|]. simpl. rewrite Ef. unfold visit. fold s1. rewrite H1h.
          fold s1'. rewrite Hn by lia. rewrite H2h. unfold add_ref. simpl. rewrite lookup_insert. simpl. unfold set_ents. simpl. by rewrite insert_insert.
        * eexists _, (S N). split; [exact (Hfin 0 ltac:(done))|]. intros [|n] Hle; [lia|]. simpl. rewrite Ef. unfold visit. fold s1. rewrite H1h.
          fold s1'. rewrite Hn by lia. by rewrite H2h.
      + destruct Hr as (HI2&Hk2&Ht2). destruct (i_open _ _ _ HI2 (next s) ltac:(set_solver)) as [k' H2h].
        eexists (Thr (set_ents (delete (next s) (ents s2)) s2)), (S N). split.
        * split_and!; [by apply inv_abort| |].
          -- eapply kept_trans; [exact Hk01|]. split; [apply Hk2|]. intros h e Hh He. simpl in He. apply lookup_delete_Some in He as [_ He]. by apply Hk2.
          -- intros h e Hin He. destruct (there_trans (H ++ O) s s1' s2 Ht01 ltac:(eapply there_mono; [|exact Ht2]; set_solver) h e Hin He) as (e2&He2&E2).
             exists e2. simpl. rewrite lookup_delete_ne; [done|]. apply not_eq_sym. by eapply Hlow.
        * intros [|n] Hle; [lia|]. simpl. rewrite Ef. unfold visit. fold s1. rewrite H1h. fold s1'. rewrite Hn by lia. by rewrite H2h.
  Qed.
  (** ** the program using the flyweights *)
  Notation usr := (Recursive.usr (K:=K) (V:=V)).
  Implicit Type t : usr.
  Definition held (t : usr) : list nat := (map_to_list (t_vars t)).*2.
  Definition TInv (t : usr) : Prop := Inv [] (held t) (t_st t).
  Lemma held_new t s x h : t_vars t !! x = None → held (Usr s (<[x:=h]> (t_vars t))) ≡ₚ h :: held t.
  Proof. intros Hx. unfold held. simpl. by rewrite (map_to_list_insert (t_vars t) x h Hx). Qed.
  Lemma held_del t s x h : t_vars t !! x = Some h → held t ≡ₚ h :: held (Usr s (delete x (t_vars t))).
  Proof. intros Hx. unfold held. simpl. by rewrite <- (map_to_list_delete (t_vars t) x h Hx). Qed.
  Lemma held_in t x h : t_vars t !! x = Some h → h ∈ held t.
  Proof. intros Hx. apply elem_of_list_fmap. exists (x, h). split; [done|]. by apply elem_of_map_to_list. Qed.
  Lemma tinv_init : TInv u_init.
  Proof.
    unfold TInv, held, u_init. simpl. rewrite map_to_list_empty. simpl. split; simpl.
    - intros h _. apply lookup_empty.
    - intros h Hh. by apply elem_of_nil in Hh.
    - intros h e He. by rewrite lookup_empty in He.
    - intros h Hh. by apply elem_of_nil in Hh.
    - intros h e _ He. by rewrite lookup_empty in He.
    - intros h1 h2 e1 e2 He. by rewrite lookup_empty in He.
    - split_and!; [constructor| |].
      + intros h k Hin. by apply elem_of_nil in Hin.
      + intros h e He. by rewrite lookup_empty in He.
  Qed.
  Lemma get_some t x h : TInv t → t_vars t !! x = Some h → ∃ e, ents (t_st t) !! h = Some e ∧ u_get t x = Some (den (e_key e)).
  Proof.
    intros HI Hx. destruct (i_held _ _ _ HI h (held_in t x h Hx)) as (e&He&HO).
    destruct (i_built _ _ _ HI h e He HO) as (Hv&_). exists e. split; [done|]. unfold u_get. by rewrite Hx; simpl; rewrite He.
  Qed.
  Lemma get_none t x : TInv t → (u_get t x = None ↔ t_vars t !! x = None).
  Proof.
    intros HI. split.
    - intros Hg. destruct (t_vars t !! x) as [h|] eqn:Hx; [|done]. destruct (get_some t x h HI Hx) as (e&_&E). congruence.
    - intros Hx. unfold u_get. by rewrite Hx.
  Qed.
  Lemma get_same t t' x h : TInv t → TInv t' → t_vars t !! x = Some h → t_vars t' !! x = Some h →
    there (held t ++ []) (t_st t) (t_st t') → u_get t' x = u_get t x.
  Proof.
    intros HI HI' Hx Hx' Ht. destruct (get_some t x h HI Hx) as (e&He&->). destruct (get_some t' x h HI' Hx') as (e'&He'&->).
    destruct (Ht h e) as (e2&He2&E); [|done|].
    { apply elem_of_app. left. by eapply held_in. }
    rewrite He' in He2. injection He2 as <-. by rewrite E.
  Qed.

  Notation ustep := (ustep body trk eqv kx).
  Notation urun := (urun body trk eqv kx).
  Definition ures o (t : usr) (r : tres) : Prop :=
    match r with
    | TNext t' => TInv t' ∧ direct o (u_get t) (u_get t')
    | TThrow t' => TInv t' ∧ (∀ x, u_get t' x = u_get t x) ∧ ∃ x k, o = UNew x k ∧ u_get t x = None
    | _ => False
    end.

  Lemma ustep_ok o t : TInv t → ∃ r N, ures o t r ∧ ∀ n, N ≤ n → ustep n o t = r.
  Proof.
    intros HI. destruct o as [x k|x y|x]; unfold Recursive.ustep.
    - destruct (t_vars t !! x) as [h|] eqn:Hx.
      + exists (TNext t), 0. split; [|done]. split; [done|]. intros z. case_decide as Hz; [|done]. subst z.
        destruct (get_some t x h HI Hx) as (e&_&E). by rewrite E.
      + destruct (create_ok k [] (held t) (t_st t) HI) as (r&N&Hr&Hn). { intros o e Ho. by apply elem_of_nil in Ho. }
        destruct r as [h s|s| |]; [| |done|done].
        * destruct Hr as (HI1&Hk1&Ht1&e&He&Ee). exists (TNext (Usr s (<[x:=h]> (t_vars t)))), N. split; [|intros n Hle; by rewrite Hn].
          assert (HI' : TInv (Usr s (<[x:=h]> (t_vars t)))). { unfold TInv. eapply inv_perm; [|exact HI1]. symmetry. by apply held_new. }
          split; [done|]. intros z. case_decide as Hz.
          -- subst z. rewrite (proj2 (get_none t x HI) Hx). destruct (get_some _ x h HI') as (e'&He'&->); [simpl; by rewrite lookup_insert|].
             simpl in He'. rewrite He in He'. injection He' as <-. f_equal. by apply Hden.
          -- destruct (t_vars t !! z) as [hz|] eqn:Hvz.
             ++ eapply get_same; try done. simpl. by rewrite lookup_insert_ne.
             ++ rewrite (proj2 (get_none t z HI) Hvz). apply (get_none _ z HI'). simpl. by rewrite lookup_insert_ne.
        * destruct Hr as (HI1&Hk1&Ht1). exists (TThrow (Usr s (t_vars t))), N. split; [|intros n Hle; by rewrite Hn].
          split_and!; [exact HI1| |].
          -- intros z. destruct (t_vars t !! z) as [hz|] eqn:Hvz; [by eapply get_same|]. unfold u_get. simpl. by rewrite Hvz.
          -- exists x, k. split; [done|]. by apply get_none.
    - destruct (t_vars t !! x) as [h|] eqn:Hx.
      { exists (TNext t), 0. split; [|done]. split; [done|]. intros z. case_decide as Hz; [|done]. subst z.
        destruct (get_some t x h HI Hx) as (e&_&E). by rewrite E. }
      destruct (t_vars t !! y) as [h|] eqn:Hy.
      2: { exists (TNext t), 0. split; [|done]. split; [done|]. intros z. case_decide as Hz; [|done]. subst z.
           rewrite (proj2 (get_none t x HI) Hx). symmetry. by apply get_none. }
      destruct (i_held _ _ _ HI h (held_in t y h Hy)) as (e&He&HO).
      assert (∃ s, (if trk then add_ref h (t_st t) else Some (t_st t)) = Some s ∧ Inv [] (h :: held t) s ∧ there (held t ++ []) (t_st t) s) as (s&Hs&HI1&Ht1).
      { destruct trk eqn:Ht.
        - destruct (add_ref_ok [] (held t) (t_st t) h Ht HI ltac:(eauto) HO) as (s&?&?&_&Ht'&_). eauto.
        - exists (t_st t). split_and!; [done| |apply there_refl]. pose proof HI as [? ? ? Hh ? ? ?]. split; try done; [|congruence].
          intros h' [->|Hin]%elem_of_cons; [eauto|by apply Hh]. }
      exists (TNext (Usr s (<[x:=h]> (t_vars t)))), 0. split; [|intros n _; destruct trk; [by rewrite Hs|by simplify_eq]].
      assert (HI' : TInv (Usr s (<[x:=h]> (t_vars t)))). { unfold TInv. eapply inv_perm; [|exact HI1]. symmetry. by apply held_new. }
      split; [done|]. intros z. case_decide as Hz.
      + subst z. rewrite (proj2 (get_none t x HI) Hx). destruct (get_some _ x h HI') as (e'&He'&->); [simpl; by rewrite lookup_insert|].
        destruct (get_some t y h HI Hy) as (e0&He0&->). destruct (Ht1 h e0) as (e2&He2&E); [|done|].
        { apply elem_of_app. left. by eapply held_in. }
        simpl in He'. rewrite He' in He2. injection He2 as <-. by rewrite E.
      + destruct (t_vars t !! z) as [hz|] eqn:Hvz.
        * eapply get_same; try done. simpl. by rewrite lookup_insert_ne.
        * rewrite (proj2 (get_none t z HI) Hvz). apply (get_none _ z HI'). simpl. by rewrite lookup_insert_ne.
    - destruct (t_vars t !! x) as [h|] eqn:Hx.
      2: { exists (TNext t), 0. split; [|done]. split; [done|]. intros z. case_decide as Hz; [|done]. subst z. by apply get_none. }
      destruct (drop_ok [h] [] (held (Usr (t_st t) (delete x (t_vars t)))) (t_st t)) as (s&->&HI1&Hk1&Ht1&_).
      { eapply inv_perm; [|exact HI]. by apply held_del. }
      assert (HI' : TInv (Usr s (delete x (t_vars t)))) by exact HI1.
      exists (TNext (Usr s (delete x (t_vars t)))), 0. split; [|done]. split; [done|]. intros z. case_decide as Hz.
      + subst z. apply (get_none _ x HI'). simpl. by rewrite lookup_delete.
      + destruct (t_vars t !! z) as [hz|] eqn:Hvz.
        * assert (Hvz' : delete x (t_vars t) !! z = Some hz) by (by rewrite lookup_delete_ne).
          destruct (get_some t z hz HI Hvz) as (e&He&->). destruct (get_some _ z hz HI' Hvz') as (e'&He'&->).
          destruct (Ht1 hz e) as (e2&He2&E); [|done|].
          { apply elem_of_app. left. eapply (held_in (Usr (t_st t) (delete x (t_vars t)))). exact Hvz'. }
          simpl in He'. rewrite He' in He2. injection He2 as <-. by rewrite E.
        * rewrite (proj2 (get_none t z HI) Hvz). apply (get_none _ z HI'). simpl. by rewrite lookup_delete_ne.
  Qed.

  Lemma urun_ok (l : list uop) : ∀ t, TInv t → ∃ t' N, TInv t' ∧ ∀ n, N ≤ n → urun n l t = TNext t'.
  Proof.
    induction l as [|o l IH]; intros t HI; simpl; [by exists t, 0|].
    destruct (ustep_ok o t HI) as (r&N&Hr&Hn). destruct r as [t1|t1| |]; [| |done|done].
    - destruct Hr as [HI1 _]. destruct (IH t1 HI1) as (t'&N'&HI'&Hn'). exists t', (N `max` N'). split; [done|].
      intros n Hle. rewrite Hn by lia. apply Hn'. lia.
    - destruct Hr as [HI1 _]. destruct (IH t1 HI1) as (t'&N'&HI'&Hn'). exists t', (N `max` N'). split; [done|].
      intros n Hle. rewrite Hn by lia. apply Hn'. lia.
  Qed.

  (** ** more fuel does not change a finished run *)
  Lemma mono_run_prog (c1 c2 : K → st → res nat) : (∀ k s, c1 k s ≠ Fuel → c2 k s = c1 k s) →
    ∀ p loc s, run_prog trk c1 p loc s ≠ Fuel → run_prog trk c2 p loc s = run_prog trk c1 p loc s.
  Proof.
    intros Hc. induction p as [v keep| |k f IHp|i p IHp]; intros loc s; cbn [run_prog]; [done|done| |].
    - intros Hne. assert (Hk : c1 k s ≠ Fuel) by (by intros E; rewrite E in Hne). rewrite (Hc k s Hk).
      destruct (c1 k s) as [h s1|s1| |]; try done. destruct (ents s1 !! h) as [[ke [v|] re ce]|]; try done. by apply IHp.
    - destruct (loc !! i) as [h|]; [|by apply IHp]. destruct (let_go trk [h] s) as [s1|]; [by apply IHp|done].
  Qed.
  Lemma mono_create n : ∀ m k s, n ≤ m → create n k s ≠ Fuel → create m k s = create n k s.
  Proof.
    induction n as [|n IH]; intros m k s Hle; [done|]. destruct m as [|m]; [lia|]. simpl.
    destruct (match Recursive.find eqv s k with Some h => _ | None => _ end) as [h s1] eqn:Ef.
    unfold visit. destruct (ents s1 !! h) as [[k0 [v|] r c]|]; try done.
    set (s1' := St (ents s1) (next s1) (S (calls s1)) (log s1)).
    intros Hne. assert (Hp : run_prog trk (create n) (body (calls s1) k0) [] s1' ≠ Fuel) by (by intros E; rewrite E in Hne).
    rewrite (mono_run_prog (create n) (create m)) by (done || (intros; apply IH; [lia|done])). done.
  Qed.
  Lemma mono_ustep n m o t : n ≤ m → ustep n o t ≠ TFuel → ustep m o t = ustep n o t.
  Proof.
    intros Hle. destruct o as [x k|x y|x]; simpl; [|done|done]. destruct (t_vars t !! x); [done|]. intros Hne.
    rewrite (mono_create n m) by (done || (by intros E; rewrite E in Hne)). done.
  Qed.
  Lemma mono_urun n m (l : list uop) : ∀ t, n ≤ m → urun n l t ≠ TFuel → urun m l t = urun n l t.
  Proof.
    induction l as [|o l IH]; intros t Hle; simpl; [done|]. intros Hne.
    rewrite (mono_ustep n m) by (done || (by intros E; rewrite E in Hne)).
    destruct (ustep n o t); try done; by apply IH.
  Qed.
  Lemma urun_inv n (l : list uop) t t' : TInv t → urun n l t = TNext t' → TInv t'.
  Proof.
    intros HI Hr. destruct (urun_ok l t HI) as (t2&N&HI2&Hn).
    assert (E : urun (n `max` N) l t = urun n l t) by (apply mono_urun; [lia|by rewrite Hr]).
    rewrite Hn, Hr in E by lia. by injection E as ->.
  Qed.

  (** ** constructions *)
  Definition same_calls s s' : Prop := calls s' + length (log s) = calls s + length (log s').
  Lemma release_log n l : ∀ s s', release trk n l s = Some s' → log s' = log s ∧ calls s' = calls s.
  Proof.
    revert l. induction n as [|n IH]; intros l s s'; simpl; destruct trk eqn:Ht; try (by intros [= <-]).
    - by destruct l; [intros [= <-]|].
    - destruct l as [|h l]; [by intros [= <-]|]. destruct (ents s !! h) as [e|]; [|done]. destruct (e_ref e) as [|[|r]]; [done|..]; intros Hr; apply IH in Hr; done.
  Qed.
  Lemma add_refs_log l : ∀ s s', add_refs l s = Some s' → log s' = log s ∧ calls s' = calls s.
  Proof.
    induction l as [|h l IH]; intros s s'; simpl; [by intros [= <-]|]. unfold add_ref. destruct (ents s !! h); [|done]. intros Hr. by apply IH in Hr.
  Qed.
  Lemma run_prog_calls (c : K → st → res nat) :
    (∀ k s, match c k s with Ret _ s' => same_calls s s' | Thr _ => False | _ => True end) →
    ∀ p, nothrow p → ∀ loc s, match run_prog trk c p loc s with Ret _ s' => same_calls s s' | Thr _ => False | _ => True end.
  Proof.
    intros Hc. induction p as [v keep| |k f IHp|i p IHp]; intros Hp loc s; cbn [run_prog]; [|done| |].
    - destruct (if trk then _ else _) as [s1|] eqn:E1; [|done]. destruct (let_go trk loc s1) as [s2|] eqn:E2; [|done].
      apply release_log in E2 as [L2 C2]. assert (log s1 = log s ∧ calls s1 = calls s) as [L1 C1].
      { destruct trk; [by eapply add_refs_log|by injection E1 as <-]. }
      unfold same_calls. by rewrite L2, C2, L1, C1.
    - pose proof (Hc k s) as Hk. destruct (c k s) as [h s1|s1| |]; try done. destruct (ents s1 !! h) as [[ke [v|] re ce]|]; try done.
      specialize (IHp v (Hp v) (loc ++ [h]) s1). destruct (run_prog _ _ _ _ _); try done. unfold same_calls in *. lia.
    - destruct (loc !! i) as [h|]; [|by apply IHp]. destruct (let_go trk [h] s) as [s1|] eqn:E1; [|done].
      apply release_log in E1 as [L1 C1]. specialize (IHp Hp (delete i loc) s1). destruct (run_prog _ _ _ _ _); try done.
      unfold same_calls in *. by rewrite L1, C1 in IHp.
  Qed.
  Lemma create_calls : (∀ n k, nothrow (body n k)) → ∀ n k s,
    match create n k s with Ret _ s' => same_calls s s' | Thr _ => False | _ => True end.
  Proof.
    intros Hnt. induction n as [|n IH]; intros k s; simpl; [done|].
    destruct (match Recursive.find eqv s k with Some h => _ | None => _ end) as [h s1] eqn:Ef.
    assert (log s1 = log s ∧ calls s1 = calls s) as [L1 C1] by (by destruct (Recursive.find eqv s k); injection Ef as <- <-).
    unfold visit. destruct (ents s1 !! h) as [[k0 [v|] r c]|]; [| |done].
    - destruct trk; [|unfold same_calls; by rewrite L1, C1]. destruct (add_ref h s1) as [s2|] eqn:E2; [|done].
      unfold add_ref in E2. destruct (ents s1 !! h); [|done]. injection E2 as <-. unfold same_calls. simpl. by rewrite L1, C1.
    - pose proof (run_prog_calls (create n) IH (body (calls s1) k0) (Hnt _ _) [] (St (ents s1) (next s1) (S (calls s1)) (log s1))) as Hp.
      destruct (run_prog _ _ _ _ _) as [[v kids] s2|s2| |]; try done. destruct (ents s2 !! h) as [[k2 [v2|] r2 c2]|]; try done.
      unfold same_calls in *. simpl in *. rewrite L1, C1 in Hp. destruct trk; [|simpl; lia]. unfold add_ref. simpl. rewrite lookup_insert. simpl. lia.
  Qed.
  Lemma urun_calls n (l : list uop) : (∀ n k, nothrow (body n k)) → ∀ t t', urun n l t = TNext t' → same_calls (t_st t) (t_st t').
  Proof.
    intros Hnt. induction l as [|o l IH]; intros t t'; simpl; [by intros [= <-]|].
    assert (Ho : match ustep n o t with TNext t' => same_calls (t_st t) (t_st t') | TThrow _ => False | _ => True end).
    { destruct o as [x k|x y|x]; simpl.
      - destruct (t_vars t !! x); [done|]. pose proof (create_calls Hnt n k (t_st t)) as Hc. by destruct (create n k (t_st t)).
      - destruct (t_vars t !! x); [done|]. destruct (t_vars t !! y) as [h|]; [|done]. destruct trk; [|done].
        unfold add_ref. by destruct (ents (t_st t) !! h).
      - destruct (t_vars t !! x) as [h|]; [|done]. destruct (let_go trk [h] (t_st t)) as [s|] eqn:E; [|done].
        apply release_log in E as [L C]. unfold same_calls. simpl. by rewrite L, C. }
    destruct (ustep n o t) as [t1|t1| |]; try done. intros Hr. apply IH in Hr. unfold same_calls in *. lia.
  Qed.
  Lemma ustep_nothrow n o t : (∀ n k, nothrow (body n k)) → ∀ t', ustep n o t ≠ TThrow t'.
  Proof.
    intros Hnt t'. destruct o as [x k|x y|x]; simpl.
    - destruct (t_vars t !! x); [done|]. pose proof (create_calls Hnt n k (t_st t)) as Hc. by destruct (create n k (t_st t)).
    - destruct (t_vars t !! x); [done|]. destruct (t_vars t !! y) as [h|]; [|done]. destruct trk; [|done]. by destruct (add_ref h (t_st t)).
    - destruct (t_vars t !! x) as [h|]; [|done]. by destruct (let_go trk [h] (t_st t)).
  Qed.

  Lemma log_once O H s : trk = false → Inv O H s → ∀ i j h h' k k', log s !! i = Some (h, k) → log s !! j = Some (h', k') → eqv k k' = true → i = j.
  Proof.
    intros Ht HI i j h h' k k' Hi Hj E. destruct (i_log _ _ _ HI) as (L1&L2&_).
    destruct (L2 h k) as (_&_&L3); [by eapply elem_of_list_lookup_2|]. destruct (L3 Ht) as (e&He&Ee).
    destruct (L2 h' k') as (_&_&L4); [by eapply elem_of_list_lookup_2|]. destruct (L4 Ht) as (e'&He'&Ee').
    assert (h = h') as <-.
    { eapply (i_uniq _ _ _ HI); [exact He|exact He'|]. eapply (eqv_trans _ Heq); [exact Ee|]. eapply (eqv_trans _ Heq); [exact E|]. by apply (eqv_sym _ Heq). }
    eapply (NoDup_lookup _ _ _ h L1); rewrite list_lookup_fmap; [by rewrite Hi|by rewrite Hj].
  Qed.

  (** ** who is in the factory *)
  Definition key_lt s (h h' : nat) : Prop := ∃ e e', ents s !! h = Some e ∧ ents s !! h' = Some e' ∧ lt (e_key e) (e_key e').
  Lemma live_ok H s : trk = true → Inv [] H s → ∀ h e, ents s !! h = Some e → live H s h.
  Proof.
    intros Ht HI.
    assert (Hup : ∀ n h e, ents s !! h = Some e → live H s h ∨ ∃ l, length l = n ∧ NoDup l ∧ ∀ x, x ∈ l → is_Some (ents s !! x) ∧ key_lt s h x).
    { induction n as [|n IH]; intros h e He.
      { right. exists []. split_and!; [done|constructor|]. intros x Hx. by apply elem_of_nil in Hx. }
      assert (Hpos : 0 < refs H s h). { rewrite <- (i_refs _ _ _ HI h e Ht He). by apply (i_built _ _ _ HI h e He (not_elem_of_nil _)). }
      unfold refs in Hpos. destruct (occ h H) eqn:Eo; [|left; apply live_held, occ_pos; lia]. simpl in Hpos.
      apply msum_pos in Hpos as (h'&e'&He'&Hin%occ_pos).
      destruct (i_built _ _ _ HI h' e' He' (not_elem_of_nil _)) as (_&_&B3). destruct (B3 h Hin) as (e2&He2&_&Hl2).
      assert (e2 = e) as -> by congruence.
      destruct (IH h' e' He') as [Hlive|(l&Hlen&Hnd&Hl)]; [left; by eapply live_kid|]. right. exists (h' :: l). split_and!.
      - simpl. lia.
      - constructor; [|done]. intros Hin'. destruct (Hl h' Hin') as (_&e3&e4&H3&H4&H34). assert (e3 = e') as -> by congruence. assert (e4 = e') as -> by congruence. by eapply lt_irrefl.
      - intros x [->|Hx]%elem_of_cons.
        + split; [eauto|]. by exists e, e'.
        + destruct (Hl x Hx) as (Hs&e3&e4&H3&H4&H34). split; [done|]. assert (e3 = e') as -> by congruence. exists e, e4. split_and!; [done|done|by eapply Htrans]. }
    intros h e He. destruct (Hup (S (size (ents s))) h e He) as [|(l&Hlen&Hnd&Hl)]; [done|]. exfalso.
    assert (Hsub : length l ≤ size (ents s)).
    { rewrite <- size_dom. rewrite <- (size_list_to_set (C:=gset nat) l Hnd). apply subseteq_size. intros x Hx. apply elem_of_list_to_set in Hx.
      apply elem_of_dom. by apply Hl. }
    lia.
  Qed.
  Lemma live_nil s h : ¬ live [] s h.
  Proof. intros Hl. remember [] as H eqn:EH. induction Hl; subst; [by eapply elem_of_nil|done]. Qed.
End Proofs.
