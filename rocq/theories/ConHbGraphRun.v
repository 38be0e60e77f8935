(** Every step of [ConHb.v] keeps its sets of events, and the values of the
    counters, within the graph (cf. [CoreHbGraphRun.v]). *)
From Verif Require Import CoreHbWf CoreHbStep.
From Verif Require Export ConHbLife ConHbGraph.

Section Prim.
  Context (lg : glog) (d : chb) (t : tid) (HG : GR lg d).
  Notation lg' a := (lg ++ [(t, a)]).
  Notation c := (co d).
  Lemma look_new a : lg' a !! length lg = Some (t, a).
  Proof. by rewrite lookup_app_r, Nat.sub_diag by lia. Qed.
  Lemma does_new a : does (lg' a) (length lg) a.
  Proof. exists t. apply look_new. Qed.
  Lemma gets_po a e : e ∈ knows c t → gets (lg' a) e (length lg).
  Proof.
    intros He. destruct (g_kn _ _ HG t e He) as (k&b&Hk&Hr). eapply gets_step; [by apply gets_ext|].
    eapply E_thread; [by eapply lookup_lt_Some|by apply look_ext|apply look_new].
  Qed.
  Lemma gets_self a e : act_ev a = Some e → gets (lg' a) e (length lg).
  Proof. intros Ha. exists (length lg). split; [|done]. exists t, a. split; [apply look_new|done]. Qed.
  Lemma gets_edge a e k : gets lg e k → edge (lg' a) k (length lg) → gets (lg' a) e (length lg).
  Proof. intros Hr He. eapply gets_step; [by apply gets_ext|done]. Qed.
  Lemma still_new a x k : still lg x k (length lg) → still (lg' a) x k (length lg).
  Proof. by apply still_ext. Qed.

  Lemma G_emit a ls : act_ev a = Some (nxt c) → (∀ e j z q r, a ≠ XRmw e j z q r) → GR (lg' a) (on_co (emit t ls) d).
  Proof.
    intros Ha Hr. assert (Hg : ∀ x, a ≠ XGot x) by (by intros x ->). apply (G_ext' _ d); try done; simpl.
    - intros u e. rewrite knows_emit. case_decide; [subst u|by left]. intros [He|He]%elem_of_union; [by left|right].
      apply elem_of_singleton in He as ->. split; [done|by apply gets_self].
    - intros x w r e Hx. split; intros He; left; eauto.
    - intros e' D. intros [[<- <-]|[_ HD]]%lookup_insert_Some; [right|by left]. auto.
    - auto.
    - intros b [Hb|Hb]%elem_of_app; [|by left]. right. apply elem_of_list_fmap in Hb as (l&->&_). done.
  Qed.
  Lemma G_learn a E : act_ev a = None → (∀ x, a ≠ XGot x) → (∀ e, e ∈ E → gets (lg' a) e (length lg)) → GR (lg' a) (on_co (learn t E) d).
  Proof.
    intros Ha Hg HE. apply (G_ext' _ d); try done; simpl.
    - by intros e j z q r ->.
    - intros u e. rewrite knows_learn. case_decide; [subst u|by left]. intros [He|He]%elem_of_union; [by left|right]. auto.
    - intros x w r e Hx. split; intros He; left; eauto.
    - auto.
    - auto.
    - auto.
  Qed.
  Lemma G_skip a : act_ev a = None → (∀ x, a ≠ XGot x) → GR (lg' a) d.
  Proof.
    intros Ha Hg. apply (G_ext' _ d); try done; auto.
    - by intros e j z q r ->.
    - intros x w r e Hx. split; intros He; left; eauto.
  Qed.
  Lemma G_enter h : GR (lg' (XEnter (idn c h))) (enter t h d).
  Proof.
    apply G_learn; [done|done|]. intros e He. destruct (g_lk _ _ HG h e He) as (k&Hk&Hr). eapply gets_edge; [done|].
    eapply E_elem; [by eapply does_lt|by apply does_ext|apply does_new].
  Qed.
  Lemma G_begin x : GR (lg' (XBegin x)) (use t x d).
  Proof.
    apply (G_learn _ (made c x)); [done|done|]. intros e He. unfold made in He. destruct (ob c !! x) as [[w r]|] eqn:Hx; [|done].
    destruct (g_ob _ _ HG x w r e Hx) as [Hw _]. destruct (Hw He) as (k&Hk&Hs&Hr). eapply gets_edge; [done|].
    apply (E_use _ _ _ x); [by eapply does_lt|by apply does_ext|apply does_new|by apply still_new].
  Qed.
  Lemma G_end x : GR (lg' (XEnd x)) (all_uses t x d).
  Proof.
    apply (G_learn _ (uses c x)); [done|done|]. intros e He. unfold uses in He. destruct (ob c !! x) as [[w r]|] eqn:Hx; [|done].
    destruct (g_ob _ _ HG x w r e Hx) as [Hw Hr0]. apply elem_of_union in He as [He|He].
    - destruct (Hw He) as (k&Hk&Hs&Hr). eapply gets_edge; [done|].
      apply (E_end _ _ _ x); [by eapply does_lt|left; by apply does_ext|apply does_new|by apply still_new].
    - destruct (Hr0 He) as (k&Hk&Hs&Hr). eapply gets_edge; [done|].
      apply (E_end _ _ _ x); [by eapply does_lt|right; by apply does_ext|apply does_new|by apply still_new].
  Qed.
  Lemma G_hear u : GR (lg' (XHear u)) (on_co (λ c, learn t (knows c u) c) d).
  Proof.
    apply (G_learn _ (knows c u)); [done|done|]. intros e He. destruct (g_kn _ _ HG u e He) as (k&b&Hk&Hr). eapply gets_edge; [done|].
    eapply E_hear; [by eapply lookup_lt_Some|by apply look_ext|apply look_new].
  Qed.
  Lemma G_leave h : GR (lg' (XLeave (idn c h))) (leave t h d).
  Proof.
    apply (G_ext _ d); try done; simpl; auto.
    - intros b e. unfold lset at 1. simpl. destruct (decide (b = h)) as [->|Hne]; [rewrite lookup_insert|rewrite lookup_insert_ne by done; by left].
      simpl. intros [He|He]%elem_of_union; [by left|right]. split; [done|by apply gets_po].
    - eauto.
    - intros x w r e Hx. split; intros He; left; eauto.
    - intros b i E Hb. transitivity (writes lg i); [exact (g_wr _ _ HG b i E Hb)|]. symmetry. apply (writes_ev _ _ _ (nxt c)); [by left|done|by eapply (g_id _ _ HG)].
    - apply (g_id _ _ HG).
    - apply (g_inj _ _ HG).
  Qed.
  Lemma G_got x : GR (lg' (XGot x)) (own_ t x d).
  Proof.
    apply (G_ext' _ d); try done; simpl; auto.
    intros y w r e. intros [[<- [= <- <-]]|[Hne Hy]]%lookup_insert_Some.
    + split; intros He; [right; split; [done|by apply gets_po]|by apply elem_of_empty in He].
    + assert (XGot x ≠ XGot y) by congruence. split; intros He; left; eauto.
  Qed.
  Lemma G_done x : GR (lg' (XDone x)) (done_ t x d).
  Proof.
    unfold done_, used, on_co. destruct (ob c !! x) as [[w0 r0]|] eqn:Hx; (apply (G_ext' _ d); try done; simpl; auto).
    - intros y w r e. intros [[<- [= <- <-]]|[Hne Hy]]%lookup_insert_Some.
      + split; intros He; [left; eauto|]. apply elem_of_union in He as [He|He]; [left; eauto|right]. split; [done|by apply gets_po].
      + split; intros He; left; eauto.
    - intros y w r e Hy. split; intros He; left; eauto.
  Qed.
  Lemma G_see h k : GR (lg' (XEv (nxt c))) (see t h k d).
  Proof. by apply (G_emit _ [(MRep (idn c h), k)]). Qed.

  Lemma hist_rmw q r z h b : hist (crmw q r z t h d) b = if decide (b = h) then (nxt c, (latest d h + z)%Z, cset (rmw q r t h c) h) :: hist d h else hist d b.
  Proof. unfold hist at 1. simpl. case_decide; [subst; by rewrite lookup_insert|by rewrite lookup_insert_ne]. Qed.
  Lemma idn_rmw q r h b : idn (rmw q r t h c) b = idn c b.
  Proof.
    destruct (nd c !! h) as [[i E]|] eqn:Hh.
    - unfold idn at 1. rewrite (nd_rmw q r t h c i E Hh). destruct r; [|done]. destruct (decide (b = h)) as [->|Hne].
      + rewrite lookup_insert. unfold idn. by rewrite Hh.
      + by rewrite lookup_insert_ne.
    - unfold rmw, idn, rel. destruct q, r; simpl; by rewrite ?Hh.
  Qed.
  Lemma G_rmw q r z h : is_Some (nd c !! h) → GR (lg' (XRmw (nxt c) (idn c h) z q r)) (crmw q r z t h d).
  Proof.
    intros [[j E0] Hh]. assert (Hid : idn c h = j) by (unfold idn; by rewrite Hh). rewrite Hid.
    set (a := XRmw _ _ _ _ _). set (k := length lg).
    assert (Hc : q = true → ∀ e, e ∈ cset c h → gets (lg' a) e k).
    { intros Hq e He. unfold cset in He. rewrite Hh in He.
      destruct (g_nd _ _ HG h j E0 e Hh He) as (k0&e'&z'&q'&Hk0&Hr). eapply gets_edge; [done|].
      eapply E_counter; [by eapply does_lt|by apply does_ext|]. exists t. rewrite look_new. unfold a. by rewrite Hq. }
    assert (Hkn : ∀ e, e ∈ knows (rmw q r t h c) t → e ∈ knows c t ∨ gets (lg' a) e k).
    { intros e He. rewrite knows_rmw in He. rewrite decide_True in He by done. rewrite !elem_of_union in He.
      destruct He as [[He|He]|He]; [by left|right|right].
      - apply elem_of_singleton in He as ->. by apply gets_self.
      - destruct q; [by apply Hc|by apply elem_of_empty in He]. }
    assert (Hkr : ∀ e, e ∈ knows (rmw q r t h c) t → gets (lg' a) e k).
    { intros e He. destruct (Hkn e He) as [He'|]; [by apply gets_po|done]. }
    pose proof (rmw_rest q r t h c) as (Rm&Ro&Rp&Rx&Rt). pose proof (nd_rmw q r t h c _ _ Hh) as Rn.
    assert (Hold : ∀ b i E, nd (rmw q r t h c) !! b = Some (i, E) → ∃ E', nd c !! b = Some (i, E')).
    { intros b i E Hb. rewrite Rn in Hb. destruct r; [|by exists E]. apply lookup_insert_Some in Hb as [[<- [= <- <-]]|[_ Hb]]; eauto. }
    assert (HR : ∀ b i E e, nd (rmw q r t h c) !! b = Some (i, E) → e ∈ E →
      (∃ E0, nd c !! b = Some (i, E0) ∧ e ∈ E0) ∨ (∃ e' z q, a = XRmw e' i z q true ∧ gets (lg' a) e k)).
    { intros b i E e Hb He. rewrite Rn in Hb. destruct r; [|eauto]. apply lookup_insert_Some in Hb as [[<- [= <- <-]]|[_ Hb]]; [|eauto].
      apply elem_of_union in He as [He|He]; [eauto|]. right. exists (nxt c), z, q. split; [done|].
      apply Hkr. rewrite knows_rmw, decide_True by done. unfold cset. by rewrite Hh. }
    apply (G_ext _ d); [done|..]; unfold crmw; cbn [co].
    - intros u e He. destruct (decide (u = t)) as [->|Hu]; [destruct (Hkn e He); auto|]. rewrite knows_rmw, decide_False in He by done. by left.
    - intros b e He. left. by rewrite idn_rmw.
    - exact HR.
    - intros b w e Hw He. change (Chb _ _ _) with (crmw q r z t h d) in Hw. rewrite hist_rmw in Hw. rewrite idn_rmw.
      case_decide as Hb; [subst b|by left]. apply elem_of_cons in Hw as [->|Hw]; [right|by left]. cbn [fst snd] in He |- *.
      unfold cset in He. destruct (nd (rmw q r t h c) !! h) as [[i E]|] eqn:Hn; [|by apply elem_of_empty in He].
      destruct (Hold _ _ _ Hn) as [E' Hn']. rewrite Hh in Hn'. injection Hn' as <- <-. rewrite Hid.
      destruct (HR h j E e Hn He) as [(E1&HE1&He1)|(e'&z'&q'&Ha&Hr)].
      + destruct (g_nd _ _ HG h j E1 e HE1 He1) as (k0&e'&z'&q'&Hk0&Hr). exists k0, e', z', q'. split_and!; [by apply does_ext| |by apply gets_ext].
        destruct Hk0 as [u Hu]. assert (e' < nxt c); [|lia]. eapply (g_ev _ _ HG k0). exists u, (XRmw e' j z' q' true). done.
      + exists k, e', z', q'. split_and!; [exists t; rewrite <-Ha; apply look_new| |done]. unfold a in Ha. injection Ha. lia.
    - intros x w r' e Hx. rewrite Ro in Hx. split; intros He; left; eauto.
    - intros e' D HD. rewrite Rp in HD. simpl in HD. apply lookup_insert_Some in HD as [[<- <-]|[_ HD]]; [right|by left]. auto.
    - right. split; [done|]. rewrite Rx. done.
    - intros b Hb. rewrite Rt in Hb. simpl in Hb. apply elem_of_cons in Hb as [->|Hb]; [right|by left]. done.
    - intros b i E Hb. destruct (Hold _ _ _ Hb) as [E' Hb']. change (Chb _ _ _) with (crmw q r z t h d). rewrite hist_rmw.
      rewrite writes_snoc. unfold write1, a. cbn [snd]. case_decide as Hbh.
      + subst b. rewrite Hh in Hb'. injection Hb' as <- <-. rewrite decide_True by done. rewrite fmap_cons. cbn [fst].
        rewrite <-(g_wr _ _ HG h j E0 Hh). f_equal. f_equal. unfold latest. by destruct (hist d h) as [|[[] ]].
      + rewrite decide_False; [by eapply (g_wr _ _ HG)|]. intros <-. by apply Hbh, (g_inj _ _ HG _ _ _ _ _ Hb' Hh).
    - intros b i E Hb. rewrite Rx. destruct (Hold _ _ _ Hb) as [E' Hb']. apply (g_id _ _ HG) in Hb'. simpl. lia.
    - intros b b' i E E' Hb Hb'. destruct (Hold _ _ _ Hb) as [? H1]. destruct (Hold _ _ _ Hb') as [? H2]. by eapply (g_inj _ _ HG).
    - intros e i z' q' r' [= _ <- _ _ _]. rewrite Rx. apply (g_id _ _ HG) in Hh. simpl. lia.
  Qed.
  Lemma G_gone x : GR lg (gone x d).
  Proof.
    destruct HG as [Gk Gl Gn Gh Go Gp Ge G1 Gt Gw Gi Gj Gc]. split; try done. simpl. intros y w r e. intros [_ Hy]%lookup_delete_Some. by apply Go.
  Qed.
  Lemma G_create h : GR (lg' (XEv (nxt c))) (ccreate t h d).
  Proof.
    assert (Hn : ∀ b i E, <[h:=(nxt c, ∅)]> (nd c) !! b = Some (i, E) → b = h ∧ i = nxt c ∧ E = ∅ ∨ b ≠ h ∧ nd c !! b = Some (i, E)).
    { intros b i E [[<- [= <- <-]]|[Hne Hb]]%lookup_insert_Some; [by left|by right]. }
    assert (Hid : ∀ b, b ≠ h → idn (co (ccreate t h d)) b = idn c b) by (intros b Hb; unfold idn; simpl; by rewrite lookup_insert_ne).
    apply (G_ext _ d); try done; unfold ccreate; cbn [co].
    - intros u e. rewrite (knows_emit t) || simpl. unfold knows. simpl. destruct (decide (u = t)) as [->|Hu]; [rewrite lookup_insert|rewrite lookup_insert_ne by done; by left].
      simpl. intros [He|He]%elem_of_union; [by left|right]. apply elem_of_singleton in He as ->. split; [done|by apply gets_self].
    - intros b e. unfold lset at 1. simpl. destruct (decide (b = h)) as [->|Hne]; [rewrite lookup_insert; intros He; by apply elem_of_empty in He|].
      rewrite lookup_insert_ne by done. left. split; [done|by apply Hid].
    - simpl. intros b i E e Hb He. destruct (Hn _ _ _ Hb) as [(_&_&->)|[_ Hb']]; [by apply elem_of_empty in He|eauto].
    - intros b w e. unfold hist at 1. simpl. destruct (decide (b = h)) as [->|Hne].
      + rewrite lookup_insert. simpl. intros ->%elem_of_list_singleton He. by apply elem_of_empty in He.
      + rewrite lookup_insert_ne by done. left. split; [done|by apply Hid].
    - simpl. intros x w r e Hx. split; intros He; left; eauto.
    - simpl. intros e' D. intros [[<- <-]|[_ HD]]%lookup_insert_Some; [right|by left]. auto.
    - simpl. auto.
    - simpl. intros b. rewrite !elem_of_cons. intros [->|[->|Hb]]; [right|right|left]; done.
    - simpl. intros b i E Hb. rewrite writes_snoc. unfold write1. cbn [snd]. unfold hist. simpl. destruct (Hn _ _ _ Hb) as [(->&->&_)|[Hne Hb']].
      + by rewrite lookup_insert, decide_True.
      + rewrite lookup_insert_ne by done. pose proof (g_id _ _ HG _ _ _ Hb') as Hlt. rewrite decide_False by lia. by apply (g_wr _ _ HG) in Hb'.
    - simpl. intros b i E Hb. destruct (Hn _ _ _ Hb) as [(_&->&_)|[_ Hb']]; [lia|]. apply (g_id _ _ HG) in Hb'. lia.
    - simpl. intros b b' i E E' Hb Hb'. destruct (Hn _ _ _ Hb) as [(->&->&_)|[_ H1]], (Hn _ _ _ Hb') as [(->&H2&_)|[_ H2]]; try done.
      + apply (g_id _ _ HG) in H2. lia.
      + subst. apply (g_id _ _ HG) in H1. lia.
      + by eapply (g_inj _ _ HG).
  Qed.
  Lemma G_destroy h : GR (lg' (XEv (nxt c))) (cdestroy t h d).
  Proof.
    assert (Hn : ∀ b i E, delete h (nd c) !! b = Some (i, E) → b ≠ h ∧ nd c !! b = Some (i, E)).
    { intros b i E [Hne Hb]%lookup_delete_Some. auto. }
    assert (Hid : ∀ b, b ≠ h → idn (co (cdestroy t h d)) b = idn c b) by (intros b Hb; unfold idn; simpl; by rewrite lookup_delete_ne).
    apply (G_ext _ d); try done; unfold cdestroy; cbn [co].
    - intros u e. unfold knows. simpl. destruct (decide (u = t)) as [->|Hu]; [rewrite lookup_insert|rewrite lookup_insert_ne by done; by left].
      simpl. intros [He|He]%elem_of_union; [by left|right]. apply elem_of_singleton in He as ->. split; [done|by apply gets_self].
    - intros b e. unfold lset at 1. simpl. destruct (decide (b = h)) as [->|Hne]; [rewrite lookup_delete; intros He; by apply elem_of_empty in He|].
      rewrite lookup_delete_ne by done. left. split; [done|by apply Hid].
    - simpl. intros b i E e Hb He. destruct (Hn _ _ _ Hb) as [_ Hb']. eauto.
    - intros b w e. unfold hist at 1. simpl. destruct (decide (b = h)) as [->|Hne].
      + rewrite lookup_delete. simpl. intros Hw. by apply elem_of_nil in Hw.
      + rewrite lookup_delete_ne by done. left. split; [done|by apply Hid].
    - simpl. intros x w r e Hx. split; intros He; left; eauto.
    - simpl. intros e' D. intros [[<- <-]|[_ HD]]%lookup_insert_Some; [right|by left]. auto.
    - simpl. auto.
    - simpl. intros b. rewrite !elem_of_cons. intros [->|[->|Hb]]; [right|right|left]; done.
    - simpl. intros b i E Hb. destruct (Hn _ _ _ Hb) as [Hne Hb']. rewrite writes_snoc. unfold write1. cbn [snd]. unfold hist. simpl.
      rewrite lookup_delete_ne by done. pose proof (g_id _ _ HG _ _ _ Hb') as Hlt. rewrite decide_False by lia. by apply (g_wr _ _ HG) in Hb'.
    - simpl. intros b i E Hb. destruct (Hn _ _ _ Hb) as [_ Hb']. apply (g_id _ _ HG) in Hb'. lia.
    - simpl. intros b b' i E E' Hb Hb'. destruct (Hn _ _ _ Hb) as [_ H1], (Hn _ _ _ Hb') as [_ H2]. by eapply (g_inj _ _ HG).
  Qed.
  Lemma G_load acq h i w v C dd : hist d h !! i = Some (w, v, C) → load acq t h i d = Some (v, dd) →
    GR (lg' (XLoad (nxt c) (idn c h) w acq)) dd.
  Proof.
    intros Hw Hl. unfold load in Hl. rewrite Hw in Hl. destruct (forallb _ _); [|done]. injection Hl as <-.
    set (a := XLoad _ _ _ _). set (k := length lg).
    apply (G_ext' _ d); try done; unfold on_co; cbn [co].
    - by destruct acq.
    - intros u e He. assert (He' : e ∈ knows (emit t [(MRef (idn c h), Atomic)] c) u ∨ u = t ∧ acq = true ∧ e ∈ C).
      { destruct acq; [|by left]. rewrite knows_learn in He. destruct (decide (u = t)) as [->|]; [|by left]. apply elem_of_union in He as [He|He]; [by left|by right]. }
      destruct He' as [He'|(->&Hq&HC)].
      + rewrite knows_emit in He'. case_decide; [subst u|by left]. apply elem_of_union in He' as [He'|He']; [by left|right].
        apply elem_of_singleton in He' as ->. split; [done|by apply gets_self].
      + right. split; [done|]. apply elem_of_list_lookup_2 in Hw.
        destruct (g_hi _ _ HG h _ e Hw HC) as (k0&e'&z&q&Hk0&Hle&Hr). eapply gets_edge; [done|].
        eapply (E_load _ _ _ _ (nxt c)); [by eapply does_lt|by apply does_ext| |exact Hle]. exists t. rewrite look_new. unfold a. by rewrite Hq.
    - intros x w' r e Hx. assert (ob c !! x = Some (w', r)) by (by destruct acq). split; intros He; left; eauto.
    - intros e' D HD. assert (HD' : <[nxt c:=knows c t]> (past c) !! e' = Some D) by (by destruct acq).
      apply lookup_insert_Some in HD' as [[<- <-]|[_ HD']]; [right|by left]. auto.
    - right. by destruct acq.
    - intros b Hb. assert (Hb' : b ∈ Acc (nxt c) t (MRef (idn c h)) Atomic :: tr c) by (by destruct acq).
      apply elem_of_cons in Hb' as [->|Hb']; [right|by left]. done.
  Qed.
End Prim.

Lemma GR_init : GR [] cinit.
Proof.
  assert (Hn : ∀ h : addr, nd hinit !! h = None) by (intros h; apply lookup_empty).
  split.
  - intros t e He. by apply elem_of_empty in He.
  - intros h e He. by apply elem_of_empty in He.
  - intros h i E e Hh. simpl in Hh. by rewrite lookup_empty in Hh.
  - intros h w e Hw. by apply elem_of_nil in Hw.
  - intros x w r e Hx. simpl in Hx. by rewrite lookup_empty in Hx.
  - intros e' D e HD. simpl in HD. by rewrite lookup_empty in HD.
  - intros k e (t&a&Hk&_). done.
  - intros k k' e (t&a&Hk&_). done.
  - intros a Ha. by apply elem_of_nil in Ha.
  - intros h i E Hh. simpl in Hh. by rewrite lookup_empty in Hh.
  - intros h i E Hh. simpl in Hh. by rewrite lookup_empty in Hh.
  - intros h h' i E E' Hh. simpl in Hh. by rewrite lookup_empty in Hh.
  - intros k e j z q r [t Ht]. done.
Qed.
Lemma idn_used t x c h : idn (used t x c) h = idn c h.
Proof. unfold used. by destruct (ob c !! x) as [[]|]. Qed.
Lemma nxt_used t x c : nxt (used t x c) = nxt c.
Proof. unfold used. by destruct (ob c !! x) as [[]|]. Qed.
Lemma nd_used t x c : nd (used t x c) = nd c.
Proof. unfold used. by destruct (ob c !! x) as [[]|]. Qed.
Lemma nxt_rmw q r t h c : nxt (rmw q r t h c) = S (nxt c).
Proof. pose proof (rmw_rest q r t h c) as (_&_&_&Rx&_). by rewrite Rx. Qed.
Lemma idn_rmw' q r t h c b : idn (rmw q r t h c) b = idn c b.
Proof. apply (idn_rmw (Chb c ∅ ∅)). Qed.
Lemma nd_rmw' q r t h c b : is_Some (nd c !! h) → is_Some (nd (rmw q r t h c) !! b) ↔ is_Some (nd c !! b).
Proof.
  intros [[j E] Hh]. rewrite (nd_rmw q r t h c j E Hh). destruct r; [|done]. destruct (decide (b = h)) as [->|Hne]; [|by rewrite lookup_insert_ne].
  rewrite lookup_insert, Hh. split; by eexists.
Qed.

Section Run.
  Context {K A R V : Type}.
  Context (P : Core.policy K A R V) (eqv : K → K → bool) (good : R → Prop).
  Context (Heq : equivalence eqv) (HP : policy_ok eqv good P).
  Context (inc_sync dec_acq : bool).
  Notation state := (state (K:=K) (A:=A) (R:=R)).
  Notation instr := (instr (K:=K) (A:=A) (R:=R)).
  Notation Inv := (Inv P eqv good).
  Notation J := (J P).
  Notation G := (G P eqv good).
  Notation cexec := (cexec P eqv inc_sync true dec_acq).
  Notation cstart := (cstart (K:=K) (A:=A) (R:=R) inc_sync).
  Notation cwalk := (cwalk P inc_sync true dec_acq).
  Notation cstep := (cstep P eqv inc_sync true dec_acq true).
  Notation crun := (crun P eqv inc_sync true dec_acq true).
  Notation g_exec := (g_exec P eqv inc_sync true dec_acq).
  Notation g_start := (g_start (K:=K) (A:=A) (R:=R) inc_sync).
  Notation g_copy := (g_copy inc_sync).
  Notation g_walk := (g_walk P inc_sync true dec_acq).
  Notation g_step := (g_step P eqv inc_sync true dec_acq true).
  Notation g_run := (g_run P eqv inc_sync true dec_acq true).
  Implicit Types (s : state) (c : hb) (d : chb) (h : addr) (i : instr) (lg : glog).

  Lemma copy_GR lg d t y h : GR lg d → is_Some (nd (co d) !! h) → GR (lg ++ (pair t <$> g_copy y h (co d))) (ccopy inc_sync t y h d).
  Proof.
    intros HG Hh. pose proof (G_begin lg d t HG y) as H1.
    apply (G_rmw _ _ t) with (q := inc_sync) (r := inc_sync) (z := 1%Z) (h := h) in H1; [|done].
    apply (G_done _ _ t) with (x := y) in H1. by rewrite <-!app_assoc in H1.
  Qed.

  Lemma exec_GR lg s d t i rest thr s' : Inv s → J s (co d) (lset d) → GR lg d → stack s t = i :: rest → exec P eqv s t i rest thr = Next s' →
    GR (lg ++ (pair t <$> g_exec s t i thr (co d))) (cexec s t i thr d).
  Proof.
    intros HI HJ HG Hst He. assert (Htop : i ∈ stack s t) by (rewrite Hst; by left).
    assert (Hl : ∀ y h, live s y = Some h → is_Some (nd (co d) !! h)).
    { intros y h Hy%live_vars. apply (j_nd _ _ _ _ HJ). destruct (ents s !! h) eqn:E; [by eexists|]. pose proof (i_gone _ _ _ _ HI h E). pose proof (cnt_var P s y h Hy). lia. }
    assert (Hr : ∀ h q r z, is_Some (nd (co d) !! h) → GR (lg ++ [(t, XRmw (nxt (co d)) (idn (co d) h) z q r)]) (crmw q r z t h d)) by (intros; by apply G_rmw).
    assert (Hown : ∀ h, 0 < own P h i → is_Some (nd (co d) !! h)).
    { intros h Hh. apply (j_nd _ _ _ _ HJ). destruct (ents s !! h) eqn:E; [by eexists|]. pose proof (i_gone _ _ _ _ HI h E) as H0. pose proof (no_cnt_own P s t i h H0 Htop). lia. }
    assert (Hacc : ∀ h, 0 < ConcurrentInv.acc h i → is_Some (nd (co d) !! h)).
    { intros h Hh. destruct (accessed P eqv good s t i h HI Htop Hh) as (n&Hn&_). apply (j_nd _ _ _ _ HJ). by eexists. }
    destruct i as [x p [|y ys] got|x p r|x h p ks k|x h ks k|x h ks k|h|x h k|x|x h|x y hx hy|x y hx hy|x y hx hy|h [|j]|h|h|h]; cbn [ConHb.cexec ConHbGraph.g_exec].
    - by rewrite app_nil_r.
    - destruct (live s y) as [h|] eqn:Hy; [|by rewrite app_nil_r]. apply copy_GR; [done|]. eauto.
    - destruct thr; [by rewrite app_nil_r|]. destruct (find P eqv s (p_key P r)) as [h|] eqn:Hf.
      + pose proof (G_enter lg d t HG h) as H1. apply (G_see _ _ t) with (h := h) (k := Read) in H1. by rewrite <-!app_assoc in H1.
      + pose proof (G_create lg d t HG (clock s)) as H1. apply (G_skip _ _ t) with (a := XEnter (nxt (co d))) in H1; [|done..]. by rewrite <-!app_assoc in H1.
    - destruct (ents s !! h) as [n|] eqn:Hn; [|by rewrite app_nil_r]. destruct (p_val P (n_rep n)); [by apply G_see|].
      destruct thr; [|by apply G_see]. pose proof (G_see lg d t HG h Read) as H1. apply (G_leave _ _ t) with (h := h) in H1. by rewrite <-!app_assoc in H1.
    - apply Hr, Hacc. simpl. rewrite at_eq. lia.
    - by apply G_leave.
    - apply Hr, Hown. simpl. rewrite at_eq. lia.
    - by apply G_got.
    - by rewrite app_nil_r.
    - pose proof (G_begin lg d t HG x) as H1. apply (G_see _ _ t) with (h := h) (k := Read) in H1. apply (G_done _ _ t) with (x := x) in H1. by rewrite <-!app_assoc in H1.
    - apply Hr, Hown. simpl. rewrite at_eq. lia.
    - apply Hr, Hown. simpl. rewrite at_eq. lia.
    - pose proof (G_got lg d t HG x) as H1. apply (G_got _ _ t) with (x := y) in H1. by rewrite <-!app_assoc in H1.
    - apply Hr, Hown. simpl. rewrite at_eq. lia.
    - apply Hr, Hown. simpl. rewrite at_eq. lia.
    - by rewrite app_nil_r.
    - by apply G_destroy.
    - by apply G_leave.
  Qed.

  Lemma start_GR lg s d t o : Inv s → J s (co d) (lset d) → GR lg d → GR (lg ++ (pair t <$> g_start s o (co d))) (cstart s t o d).
  Proof.
    intros HI HJ HG.
    assert (Hl : ∀ y h, live s y = Some h → is_Some (nd (co d) !! h)).
    { intros y h Hy%live_vars. apply (j_nd _ _ _ _ HJ). destruct (ents s !! h) eqn:E; [by eexists|]. pose proof (i_gone _ _ _ _ HI h E). pose proof (cnt_var P s y h Hy). lia. }
    destruct o as [x p ys|x y|x y|x y|x|x]; cbn [ConHb.cstart ConHbGraph.g_start].
    - by rewrite app_nil_r.
    - destruct (live s y) as [h|] eqn:Hy; [|by rewrite app_nil_r]. rewrite fmap_app, app_assoc. apply G_got. apply copy_GR; [done|]. eauto.
    - destruct (live s y) as [h|] eqn:Hy; [|by rewrite app_nil_r]. rewrite !fmap_app, !app_assoc. apply G_got.
      apply (copy_GR _ (all_uses t x d)); [by apply G_end|]. simpl. eauto.
    - destruct (live s x) as [h|] eqn:Hx; [|by rewrite app_nil_r].
      assert (H1 : GR (lg ++ (pair t <$> [XEnd x; XEnd y] ++ g_copy x h (co d))) (ccopy inc_sync t x h (all_uses t y (all_uses t x d)))).
      { rewrite fmap_app, app_assoc. apply (copy_GR _ (all_uses t y (all_uses t x d))); [|simpl; eauto].
        pose proof (G_end lg d t HG x) as H1. apply (G_end _ _ t) with (x := y) in H1. by rewrite <-!app_assoc in H1. }
      cbv zeta. case_decide; [done|]. by apply G_gone, G_gone.
    - by apply G_gone, G_end.
    - destruct (live s x) as [h|] eqn:Hx; [|by rewrite app_nil_r]. apply copy_GR; [done|]. eauto.
  Qed.

  Lemma walk_GR s t x c0 path : ∀ h lg d, GR lg d → (∀ b, idn (co d) b = idn c0 b) → (∀ b n, ents s !! b = Some n → is_Some (nd (co d) !! b)) → is_Some (nd (co d) !! h) →
    (∀ b n h', ents s !! b = Some n → h' ∈ p_kids P (n_rep n) → ∃ n', ents s !! h' = Some n') →
    GR (lg ++ (pair t <$> g_walk s x h path (nxt (co d)) c0)) (cwalk s t x h path d).
  Proof.
    assert (HS : ∀ h lg d, GR lg d → (∀ b, idn (co d) b = idn c0 b) → is_Some (nd (co d) !! h) →
      let n := nxt (co d) in let d' := done_ t x (see t h Read (done_ t x (cdecr true dec_acq t h (done_ t x (cincr inc_sync t h d))))) in
      GR (lg ++ (pair t <$> [g_inc inc_sync n h c0; XDone x; g_dec true dec_acq (S n) h c0; XDone x; XEv (S (S n)); XDone x])) d' ∧
      nxt (co d') = S (S (S n)) ∧ (∀ b, idn (co d') b = idn c0 b) ∧ (∀ b, is_Some (nd (co d') !! b) ↔ is_Some (nd (co d) !! b))).
    { intros h lg d HG Hid Hh n.
      pose proof (G_rmw lg d t HG inc_sync inc_sync 1%Z h Hh) as H1. set (d1 := crmw inc_sync inc_sync 1 t h d) in *.
      pose proof (G_done _ _ t H1 x) as H2. set (d2 := done_ t x d1) in *.
      assert (N1 : nxt (co d2) = S n) by (unfold d2, done_, on_co; cbn [co]; rewrite nxt_used; apply nxt_rmw).
      assert (I1 : ∀ b, idn (co d2) b = idn c0 b) by (intros b; unfold d2, done_, on_co; cbn [co]; rewrite idn_used; unfold d1, crmw; cbn [co]; by rewrite idn_rmw').
      assert (S1 : ∀ b, is_Some (nd (co d2) !! b) ↔ is_Some (nd (co d) !! b)) by (intros b; unfold d2, done_, on_co; cbn [co]; rewrite nd_used; by apply nd_rmw').
      pose proof (G_rmw _ d2 t H2 dec_acq true (-1)%Z h (proj2 (S1 h) Hh)) as H3. set (d3 := crmw dec_acq true (-1) t h d2) in *.
      pose proof (G_done _ _ t H3 x) as H4. set (d4 := done_ t x d3) in *.
      assert (N2 : nxt (co d4) = S (S n)) by (unfold d4, done_, on_co; cbn [co]; rewrite nxt_used, <-N1; apply nxt_rmw).
      assert (I2 : ∀ b, idn (co d4) b = idn c0 b) by (intros b; unfold d4, done_, on_co; cbn [co]; rewrite idn_used; unfold d3, crmw; cbn [co]; by rewrite idn_rmw').
      assert (S2 : ∀ b, is_Some (nd (co d4) !! b) ↔ is_Some (nd (co d) !! b)).
      { intros b. rewrite <-S1. unfold d4, done_, on_co; cbn [co]; rewrite nd_used. apply nd_rmw'. by apply S1. }
      pose proof (G_see _ d4 t H4 h Read) as H5. pose proof (G_done _ _ t H5 x) as H6. set (d6 := done_ t x (see t h Read d4)) in *.
      cbv zeta. split; [|split_and!].
      - rewrite <-!app_assoc in H6. rewrite N1, N2, I1, Hid in H6. exact H6.
      - change (nxt (used t x (emit t [(MRep (idn (co d4) h), Read)] (co d4))) = S (S (S n))). rewrite nxt_used. exact (f_equal S N2).
      - intros b. change (idn (used t x (emit t [(MRep (idn (co d4) h), Read)] (co d4))) b = idn c0 b). rewrite idn_used. apply I2.
      - intros b. rewrite <-S2. change (is_Some (nd (used t x (emit t [(MRep (idn (co d4) h), Read)] (co d4))) !! b) ↔ is_Some (nd (co d4) !! b)). by rewrite nd_used. }
    induction path as [|j path IH]; intros h lg d HG Hid He Hh Hk; cbn [ConHb.cwalk ConHbGraph.g_walk]; rewrite fmap_app, app_assoc;
      destruct (HS h lg d HG Hid Hh) as (H1&N1&I1&S1); [by rewrite app_nil_r|].
    destruct (ents s !! h) as [n|] eqn:Hn; [|by rewrite app_nil_r]. destruct (p_kids P (n_rep n) !! j) as [h'|] eqn:Hj; [|by rewrite app_nil_r].
    rewrite <-N1. apply elem_of_list_lookup_2 in Hj. destruct (Hk h n h' Hn Hj) as [n' Hn'].
    apply IH; [done|done| |by apply S1; eapply He|done]. intros b m Hb. apply S1. by eapply He.
  Qed.

  Lemma cstep_GR lg sd l sd' : G sd → GR lg sd.2 → cstep sd l = Some sd' → GR (lg ++ g_step sd l) sd'.2.
  Proof.
    destruct sd as [s d]. intros [HI [HJ _]] HG. simpl in HI, HJ, HG. destruct l as [l|i|t h|t u|t x path]; cbn [ConHb.cstep ConHbGraph.g_step].
    - destruct (tests s l); [intros [= <-]; by rewrite app_nil_r|]. destruct (step P eqv s l) as [s'| |] eqn:El; [|intros [= <-]; by rewrite app_nil_r|done]. intros [= <-]. cbn [snd].
      destruct l as [t o|t thr| |h|]; cbn [clab g_lab]; cbn [step] in El; try (by rewrite app_nil_r).
      + by apply start_GR.
      + destruct (stack s t) as [|i rest] eqn:Hst; [done|]. by eapply exec_GR.
      + by apply G_enter.
    - destruct (stack s gc_tid) as [|i0 rest] eqn:Est; [intros [= <-]; by rewrite app_nil_r|]. destruct i0; try (intros [= <-]; by rewrite app_nil_r). destruct (ents s !! h) as [n|] eqn:Hn; [|done].
      destruct (load true gc_tid h i d) as [[v d']|] eqn:Hl; intros [= <-]; [|by rewrite app_nil_r]. cbn [snd].
      destruct (hist d h !! i) as [[[e v'] E]|] eqn:Hi; [|unfold load in Hl; by rewrite Hi in Hl].
      assert (v' = v) as -> by (unfold load in Hl; rewrite Hi in Hl; destruct (forallb _ _); congruence). by eapply G_load.
    - destruct (stack s t) as [|[] ?] eqn:Est; try (intros [= <-]; by rewrite app_nil_r). destruct (ents s !! h) as [[r1 z1 [o1|]]|] eqn:Hn; intros [= <-]; try (by rewrite app_nil_r). cbn [snd].
      pose proof (G_enter lg d t HG h) as H1. apply (G_see _ _ t) with (h := h) (k := Read) in H1. apply (G_leave _ _ t) with (h := h) in H1. by rewrite <-!app_assoc in H1.
    - intros [= <-]. by apply G_hear.
    - destruct (stack s t); [|intros [= <-]; by rewrite app_nil_r]. destruct (live s x) as [h|] eqn:Hx; intros [= <-]; [|by rewrite app_nil_r]. cbn [snd]. apply live_vars in Hx.
      assert (Hc : ∀ b, 0 < cnt P s b → ∃ n', ents s !! b = Some n').
      { intros b Hb. destruct (ents s !! b) eqn:E; [by eexists|]. pose proof (i_gone _ _ _ _ HI b E). lia. }
      rewrite fmap_cons, cons_middle, app_assoc. apply (walk_GR s t x (co d) path h _ (use t x d)); [by apply G_begin|done| | |].
      + intros b n Hb. apply (j_nd _ _ _ _ HJ). by eexists.
      + apply (j_nd _ _ _ _ HJ). by apply Hc, (cnt_var P s x).
      + intros b n h' Hb Hk. apply Hc. by eapply (cnt_kid P s b n).
  Qed.
  Lemma crun_GR ls : ∀ lg sd sd', G sd → GR lg sd.2 → crun sd ls = Some sd' → G sd' ∧ GR (lg ++ g_run sd ls) sd'.2.
  Proof.
    induction ls as [|l ls IH]; intros lg sd sd' H0 HG; cbn [ConHb.crun ConHbGraph.g_run]; [intros [= <-]; by rewrite app_nil_r|].
    destruct (cstep_G P eqv good Heq HP inc_sync dec_acq sd l H0) as (sd1&E1&H1). rewrite E1. intros H. rewrite app_assoc.
    eapply IH; [done| |done]. by eapply cstep_GR.
  Qed.
  Lemma init_GR ls sd : crun (init, cinit) ls = Some sd → G sd ∧ GR (g_run (init, cinit) ls) sd.2.
  Proof. intros H. apply (crun_GR ls []) in H; [done|by apply cinit_G|apply GR_init]. Qed.
End Run.
