(** Every step of [CoreHb.v] keeps its sets within the graph. *)
From Verif Require Import CoreHbWf CoreHbStep.
From Verif Require Export CoreHbGraph.

Section Prim.
  Context (lg : glog) (c : hb) (t : tid) (HG : G lg c).
  Notation lg' a := (lg ++ [(t, a)]).
  Lemma look_new a : lg' a !! length lg = Some (t, a).
  Proof. by rewrite lookup_app_r, Nat.sub_diag by lia. Qed.
  Lemma does_new a : does (lg' a) (length lg) a.
  Proof. exists t. apply look_new. Qed.
  Lemma reach_po a e : e ∈ knows c t → reach (lg' a) e (length lg).
  Proof.
    intros He. destruct (g_kn _ _ HG t e He) as (k&b&Hk&Hr). eapply reach_step; [by apply reach_ext|].
    eapply E_thread; [by eapply lookup_lt_Some|by apply look_ext|apply look_new].
  Qed.
  Lemma reach_self a e : act_ev a = Some e → reach (lg' a) e (length lg).
  Proof. intros Ha. exists (length lg). split; [|done]. exists t, a. split; [apply look_new|done]. Qed.
  Lemma reach_edge a e k : reach lg e k → edge (lg' a) k (length lg) → reach (lg' a) e (length lg).
  Proof. intros Hr He. eapply reach_step; [by apply reach_ext|done]. Qed.
  Lemma still_new a x k : still lg x k (length lg) → still (lg' a) x k (length lg).
  Proof. by apply still_ext. Qed.

  Lemma G_emit a ls : act_ev a = Some (nxt c) → G (lg' a) (emit t ls c).
  Proof.
    intros Ha. assert (Hg : ∀ x, a ≠ XGot x) by (by intros x ->). apply (G_ext _ c); [done|..]; simpl.
    - intros u e. rewrite knows_emit. case_decide; [subst u|by left]. intros [He|He]%elem_of_union; [by left|right].
      apply elem_of_singleton in He as ->. split; [done|by apply reach_self].
    - auto.
    - eauto.
    - intros x w r e Hx. split; intros He; left; eauto.
    - intros e' D. intros [[<- <-]|[_ HD]]%lookup_insert_Some; [right|by left]. auto.
    - auto.
    - intros b [Hb|Hb]%elem_of_app; [|by left]. right. apply elem_of_list_fmap in Hb as (l&->&_). done.
  Qed.
  Lemma G_learn a E : act_ev a = None → (∀ x, a ≠ XGot x) → (∀ e, e ∈ E → reach (lg' a) e (length lg)) → G (lg' a) (learn t E c).
  Proof.
    intros Ha Hg HE. apply (G_ext _ c); [done|..]; simpl.
    - intros u e. rewrite knows_learn. case_decide; [subst u|by left]. intros [He|He]%elem_of_union; [by left|right]. auto.
    - auto.
    - eauto.
    - intros x w r e Hx. split; intros He; left; eauto.
    - auto.
    - auto.
    - auto.
  Qed.
  Lemma G_lock : G (lg' XLock) (learn t (mset c) c).
  Proof.
    apply G_learn; [done|done|]. intros e He. destruct (g_mset _ _ HG e He) as (k&Hk&Hr). eapply reach_edge; [done|].
    apply E_mutex; [by eapply does_lt|by apply does_ext|apply does_new].
  Qed.
  Lemma G_begin x : G (lg' (XBegin x)) (learn t (made c x) c).
  Proof.
    apply G_learn; [done|done|]. intros e He. unfold made in He. destruct (ob c !! x) as [[w r]|] eqn:Hx; [|done].
    destruct (g_ob _ _ HG x w r e Hx) as [Hw _]. destruct (Hw He) as (k&Hk&Hs&Hr). eapply reach_edge; [done|].
    apply (E_use _ _ _ x); [by eapply does_lt|by apply does_ext|apply does_new|by apply still_new].
  Qed.
  Lemma G_end x : G (lg' (XEnd x)) (learn t (uses c x) c).
  Proof.
    apply G_learn; [done|done|]. intros e He. unfold uses in He. destruct (ob c !! x) as [[w r]|] eqn:Hx; [|done].
    destruct (g_ob _ _ HG x w r e Hx) as [Hw Hr0]. apply elem_of_union in He as [He|He].
    - destruct (Hw He) as (k&Hk&Hs&Hr). eapply reach_edge; [done|].
      apply (E_end _ _ _ x); [by eapply does_lt|left; by apply does_ext|apply does_new|by apply still_new].
    - destruct (Hr0 He) as (k&Hk&Hs&Hr). eapply reach_edge; [done|].
      apply (E_end _ _ _ x); [by eapply does_lt|right; by apply does_ext|apply does_new|by apply still_new].
  Qed.
  Lemma G_hear u : G (lg' (XHear u)) (learn t (knows c u) c).
  Proof.
    apply G_learn; [done|done|]. intros e He. destruct (g_kn _ _ HG u e He) as (k&b&Hk&Hr). eapply reach_edge; [done|].
    eapply E_hear; [by eapply lookup_lt_Some|by apply look_ext|apply look_new].
  Qed.
  Lemma G_unlock : G (lg' XUnlock) (set_mset (mset c ∪ knows c t) c).
  Proof.
    apply (G_ext _ c); [done|..]; simpl; auto.
    - intros e [He|He]%elem_of_union; [by left|right]. split; [done|by apply reach_po].
    - eauto.
    - intros x w r e Hx. split; intros He; left; eauto.
  Qed.
  Lemma G_got x : G (lg' (XGot x)) (fresh_ob t x c).
  Proof.
    apply (G_ext _ c); [done|..]; simpl; auto.
    - eauto.
    - intros y w r e. intros [[<- [= <- <-]]|[Hne Hy]]%lookup_insert_Some.
      + split; intros He; [right; split; [done|by apply reach_po]|by apply elem_of_empty in He].
      + assert (XGot x ≠ XGot y) by congruence. split; intros He; left; eauto.
  Qed.
  Lemma G_done x : G (lg' (XDone x)) (used t x c).
  Proof.
    unfold used. destruct (ob c !! x) as [[w0 r0]|] eqn:Hx; (apply (G_ext _ c); [done|..]; simpl; auto); try eauto.
    - intros y w r e. intros [[<- [= <- <-]]|[Hne Hy]]%lookup_insert_Some.
      + split; intros He; [left; eauto|]. apply elem_of_union in He as [He|He]; [left; eauto|right]. split; [done|by apply reach_po].
      + split; intros He; left; eauto.
    - intros y w r e Hy. split; intros He; left; eauto.
  Qed.
  Lemma G_rmw q r h : G (lg' (XRmw (nxt c) (idn c h) q r)) (rmw q r t h c).
  Proof.
    set (a := XRmw _ _ _ _). set (k := length lg).
    assert (Hc : q = true → ∀ e, e ∈ cset c h → reach (lg' a) e k).
    { intros Hq e He. unfold cset in He. destruct (nd c !! h) as [[i E]|] eqn:Hh; [|done].
      destruct (g_nd _ _ HG h i E e Hh He) as (k0&e'&q'&Hk0&Hr). eapply reach_edge; [done|].
      eapply E_counter; [by eapply does_lt|by apply does_ext|]. exists t. rewrite look_new. unfold a, idn. by rewrite Hh, Hq. }
    assert (Hkn : ∀ e, e ∈ knows (rmw q r t h c) t → e ∈ knows c t ∨ reach (lg' a) e k).
    { intros e He. rewrite knows_rmw in He. rewrite decide_True in He by done. rewrite !elem_of_union in He.
      destruct He as [[He|He]|He]; [by left|right|right].
      - apply elem_of_singleton in He as ->. by apply reach_self.
      - destruct q; [by apply Hc|by apply elem_of_empty in He]. }
    assert (Hkr : ∀ e, e ∈ knows (rmw q r t h c) t → reach (lg' a) e k).
    { intros e He. destruct (Hkn e He) as [He'|]; [by apply reach_po|done]. }
    pose proof (rmw_rest q r t h c) as (Rm&Ro&Rp&Rx&Rt). apply (G_ext _ c); [done|..].
    - intros u e He. destruct (decide (u = t)) as [->|Hu]; [destruct (Hkn e He); auto|]. rewrite knows_rmw, decide_False in He by done. by left.
    - rewrite Rm. auto.
    - intros b i E e Hb He. destruct (nd c !! h) as [[j E0]|] eqn:Hh.
      + rewrite (nd_rmw q r t h c _ _ Hh) in Hb. destruct r; [|eauto]. apply lookup_insert_Some in Hb as [[<- [= <- <-]]|[_ Hb]]; [|eauto].
        apply elem_of_union in He as [He|He]; [eauto|]. right. exists (nxt c), q. split; [unfold a, idn; by rewrite Hh|].
        apply Hkr. rewrite knows_rmw, decide_True by done. unfold cset. by rewrite Hh.
      + left. exists E. split; [|done]. revert Hb. unfold rmw. destruct q, r; unfold rel; simpl; by rewrite ?Hh.
    - intros x w r' e Hx. rewrite Ro in Hx. split; intros He; left; eauto.
    - intros e' D HD. rewrite Rp in HD. simpl in HD. apply lookup_insert_Some in HD as [[<- <-]|[_ HD]]; [right|by left]. auto.
    - right. split; [done|]. rewrite Rx. done.
    - intros b Hb. rewrite Rt in Hb. simpl in Hb. apply elem_of_cons in Hb as [->|Hb]; [right|by left]. done.
  Qed.
  Lemma G_nd m : (∀ h i E, m !! h = Some (i, E) → nd c !! h = Some (i, E) ∨ E = ∅) → G lg (set_nd m c).
  Proof.
    intros Hm. destruct HG as [Gk Gm Gn Go Gp Ge G1 Gt]. split; try done. simpl. intros h i E e Hh He.
    destruct (Hm h i E Hh) as [H0| ->]; [by eapply Gn|by apply elem_of_empty in He].
  Qed.
  Lemma G_ob x : G lg (set_ob (delete x (ob c)) c).
  Proof.
    destruct HG as [Gk Gm Gn Go Gp Ge G1 Gt]. split; try done. simpl. intros y w r e. intros [_ Hy]%lookup_delete_Some. by apply Go.
  Qed.
End Prim.

Lemma G_create lg c t h : G lg c → G (lg ++ [(t, XEv (nxt c))]) (create t h c).
Proof.
  intros HG. unfold create. apply G_nd; [by apply G_emit|]. intros b i E [[_ [= <- <-]]|[_ Hb]]%lookup_insert_Some; auto.
Qed.
Lemma G_destroy lg c t h : G lg c → G (lg ++ [(t, XEv (nxt c))]) (destroy t h c).
Proof.
  intros HG. unfold destroy. apply G_nd; [by apply G_emit|]. intros b i E [_ Hb]%lookup_delete_Some. auto.
Qed.
Lemma G_touch lg c t x h : G lg c → G (lg ++ [(t, XEv (nxt c)); (t, XDone x)]) (touch t x h c).
Proof.
  intros HG. unfold touch. change [(t, XEv (nxt c)); (t, XDone x)] with ([(t, XEv (nxt c))] ++ [(t, XDone x)]). rewrite app_assoc.
  apply G_done. by apply G_emit.
Qed.
Lemma G_init : G [] hinit.
Proof.
  split.
  - intros t e He. by apply elem_of_empty in He.
  - intros e He. by apply elem_of_empty in He.
  - intros h i E e Hh. simpl in Hh. by rewrite lookup_empty in Hh.
  - intros x w r e Hx. simpl in Hx. by rewrite lookup_empty in Hx.
  - intros e' D e HD. simpl in HD. by rewrite lookup_empty in HD.
  - intros k e (t&a&Hk&_). done.
  - intros k k' e (t&a&Hk&_). done.
  - intros a Ha. by apply elem_of_nil in Ha.
Qed.
Lemma idn_used t x c h : idn (used t x c) h = idn c h.
Proof. unfold used. by destruct (ob c !! x) as [[]|]. Qed.
Lemma nxt_used t x c : nxt (used t x c) = nxt c.
Proof. unfold used. by destruct (ob c !! x) as [[]|]. Qed.
Lemma idn_rmw q r t h c b : idn (rmw q r t h c) b = idn c b.
Proof.
  destruct (nd c !! h) as [[i E]|] eqn:Hh.
  - unfold idn at 1. rewrite (nd_rmw q r t h c i E Hh). destruct r; [|done]. destruct (decide (b = h)) as [->|Hne].
    + rewrite lookup_insert. unfold idn. by rewrite Hh.
    + by rewrite lookup_insert_ne.
  - unfold rmw, idn, rel. destruct q, r; simpl; by rewrite ?Hh.
Qed.

Section Run.
  Context {K A R V : Type}.
  Context (P : policy K A R V) (FS : factory K) (cfg : config).
  Context (inc_sync dec_rel dec_acq : bool).
  Notation state := (state (R:=R) (K:=K) (A:=A) FS).
  Notation instr := (instr (K:=K) (A:=A) (R:=R)).
  Notation hexec := (hexec P FS cfg inc_sync dec_rel dec_acq).
  Notation hstart := (hstart P FS cfg inc_sync).
  Notation hcopy := (hcopy FS cfg inc_sync).
  Notation hstep := (hstep P FS cfg inc_sync dec_rel dec_acq).
  Notation hrun := (hrun P FS cfg inc_sync dec_rel dec_acq).
  Notation g_exec := (g_exec P FS cfg inc_sync dec_rel dec_acq).
  Notation g_copy := (g_copy FS cfg inc_sync).
  Notation g_start := (g_start P FS cfg inc_sync).
  Notation g_step := (g_step P FS cfg inc_sync dec_rel dec_acq).
  Notation g_run := (g_run P FS cfg inc_sync dec_rel dec_acq).
  Implicit Types (s : state) (i : instr).

  Lemma exec_G lg c s t i ch : G lg c → G (lg ++ (pair t <$> g_exec s t i ch c)) (hexec s t i ch c).
  Proof.
    intros HG. destruct i as [x p r|x p r|x h p ks k|x h ks k|x h ks k| |h|h|h|h|x h k|x]; cbn [CoreHbGraph.g_exec CoreHb.hexec].
    - destruct (lck cfg); [by apply G_lock|by rewrite app_nil_r].
    - set (c1 := emit t _ c). assert (H1 : G (lg ++ [(t, XEv (nxt c))]) c1) by (by apply G_emit).
      destruct (c_throw ch); [done|]. destruct (f_find FS (cont s) (kview P s) (p_key P r)); [done| |done].
      cbn [fmap list_fmap]. rewrite cons_middle, app_assoc. change (S (nxt c)) with (nxt c1). by apply G_create.
    - destruct (entry s h) as [n|]; [|by rewrite app_nil_r]. destruct (p_val P (n_rep n)); [by apply G_emit|].
      destruct (c_throw ch); [by apply G_destroy|by apply G_emit].
    - unfold incr. destruct (trk cfg); [by apply G_rmw|by rewrite app_nil_r].
    - by apply G_emit.
    - destruct (lock s) as [[? [|[]]]|]; try (by rewrite app_nil_r). by apply G_unlock.
    - unfold decr. destruct (trk cfg); [by apply G_rmw|by rewrite app_nil_r].
    - destruct (lck cfg); [by apply G_lock|by rewrite app_nil_r].
    - set (c1 := emit t _ c). assert (H1 : G (lg ++ [(t, XEv (nxt c))]) c1) by (by apply G_emit).
      destruct (entry s h) as [n|]; [|done]. case_decide; [|done].
      cbn [fmap list_fmap]. rewrite cons_middle, app_assoc. change (S (nxt c)) with (nxt c1). by apply G_destroy.
    - by rewrite app_nil_r.
    - by apply G_got.
    - by rewrite app_nil_r.
  Qed.

  Lemma copy_G lg c s t y : G lg c → G (lg ++ (pair t <$> g_copy s y (nxt c) c)) (hcopy s t y c).
  Proof.
    intros HG. unfold CoreHbGraph.g_copy, CoreHb.hcopy. destruct (live s y) as [h|]; [|by rewrite app_nil_r].
    pose proof (G_begin lg c t HG y) as H1. unfold incr. destruct (trk cfg).
    - simpl. apply (G_rmw _ _ t) with (q := inc_sync) (r := inc_sync) (h := h) in H1. apply (G_done _ _ t) with (x := y) in H1.
      by rewrite <-!app_assoc in H1.
    - simpl. apply (G_done _ _ t) with (x := y) in H1. by rewrite <-!app_assoc in H1.
  Qed.
  Lemma copy_nxt s t y c n c0 : nxt (hcopy s t y c) = nxt c + g_count (g_copy s y n c0).
  Proof.
    unfold CoreHbGraph.g_copy, CoreHb.hcopy, incr. destruct (live s y) as [h|]; [|cbn; lia]. rewrite nxt_used. destruct (trk cfg); [|cbn; lia].
    pose proof (rmw_rest inc_sync inc_sync t h (learn t (made c y) c)) as (_&_&_&Rx&_). rewrite Rx. cbn. lia.
  Qed.
  Lemma copy_idn s t y c h : idn (hcopy s t y c) h = idn c h.
  Proof.
    unfold CoreHb.hcopy, incr. destruct (live s y); [|done]. rewrite idn_used. destruct (trk cfg); [|done]. by rewrite idn_rmw.
  Qed.
  Lemma g_copy_ext s y n c c' : (∀ h, idn c' h = idn c h) → g_copy s y n c' = g_copy s y n c.
  Proof. intros H. unfold CoreHbGraph.g_copy. destruct (live s y); [|done]. by rewrite H. Qed.
  Lemma copies_G s t ys c0 : ∀ lg c, G lg c → (∀ h, idn c h = idn c0 h) →
    G (lg ++ (pair t <$> g_copies FS cfg inc_sync s ys (nxt c) c0)) (foldl (λ c y, hcopy s t y c) c ys).
  Proof.
    induction ys as [|y ys IH]; intros lg c HG Hid; cbn [g_copies foldl]; [by rewrite app_nil_r|].
    rewrite fmap_app, app_assoc. rewrite <-(g_copy_ext s y (nxt c) c0 c Hid) at 1.
    rewrite <-(copy_nxt s t y c (nxt c) c0). apply IH; [by apply copy_G|]. intros h. by rewrite copy_idn.
  Qed.

  Lemma inner_G s t x c0 path : ∀ h lg c, G lg c → (∀ b, idn c b = idn c0 b) →
    G (lg ++ (pair t <$> g_inner P FS cfg inc_sync s x h path (nxt c) c0)) (hinner P FS cfg inc_sync s t x h path c).
  Proof.
    induction path as [|j path IH]; intros h lg c HG Hid; cbn [g_inner hinner].
    - rewrite fmap_app, app_assoc. apply G_done. unfold incr. destruct (trk cfg); [|by rewrite app_nil_r]. rewrite <- Hid. by apply G_rmw.
    - pose proof (G_touch lg c t x h HG) as H1. destruct (entry s h) as [m|]; [|done]. destruct (p_kids P (n_rep m) !! j) as [h'|]; [|done].
      rewrite fmap_app, app_assoc. replace (S (nxt c)) with (nxt (touch t x h c)) by (unfold touch; by rewrite nxt_used).
      apply IH; [done|]. intros b. unfold touch. rewrite idn_used. apply Hid.
  Qed.

  Lemma start_G lg c s t o : G lg c → G (lg ++ (pair t <$> g_start s t o c)) (hstart s t o c).
  Proof.
    intros HG. destruct o as [x p ys|x y|x y|x y|x|x|x y path]; cbn [CoreHbGraph.g_start CoreHb.hstart].
    - by apply copies_G.
    - rewrite fmap_app, app_assoc. by apply G_got, copy_G.
    - rewrite !fmap_app, !app_assoc. apply G_got. apply (copy_G _ (learn t (uses c x) c)). by apply G_end.
    - pose proof (G_end _ _ t HG x) as H1. apply (G_end _ _ t) with (x := y) in H1.
      set (c2 := learn t (uses c x ∪ uses c y) c). assert (H2 : G ((lg ++ [(t, XEnd x)]) ++ [(t, XEnd y)]) c2).
      { change (uses (learn t (uses c x) c) y) with (uses c y) in H1. destruct H1 as [Gk Gm Gn Go Gp Ge G1 Gt]. split; try done.
        intros u e He. apply (Gk u). revert He. unfold c2. rewrite !knows_learn. destruct (decide (u = t)); [|done]. rewrite !decide_True by done. set_solver. }
      apply (G_got _ _ t) with (x := x) in H2. apply (G_got _ _ t) with (x := y) in H2. by rewrite <-!app_assoc in H2.
    - apply (G_ob _ (learn t (uses c x) c)). by apply G_end.
    - destruct (live s x) as [h|]; [|by rewrite app_nil_r]. pose proof (G_begin _ _ t HG x) as H1.
      apply (G_touch _ _ t x h) in H1. by rewrite <-!app_assoc in H1.
    - destruct (live s y) as [h|]; [|by rewrite app_nil_r]. rewrite !fmap_app, !app_assoc. apply G_got.
      apply (inner_G s t y c path h _ (learn t (made c y) c)); [by apply G_begin|done].
  Qed.
  Lemma walk_G s t x path : ∀ h lg c, G lg c → G (lg ++ (pair t <$> g_walk P FS s x h path (nxt c))) (walk P FS s t x h path c).
  Proof.
    induction path as [|j path IH]; intros h lg c HG; cbn [g_walk walk]; pose proof (G_touch lg c t x h HG) as H1; [done|].
    destruct (entry s h) as [m|]; [|done]. destruct (p_kids P (n_rep m) !! j) as [h'|]; [|done].
    rewrite fmap_app, app_assoc. replace (S (nxt c)) with (nxt (touch t x h c)); [by apply IH|]. unfold touch. by rewrite nxt_used.
  Qed.

  Lemma step_G lg sc l sc' : G lg sc.2 → hstep sc l = Some sc' → G (lg ++ g_step sc l) sc'.2.
  Proof.
    destruct sc as [s c]. cbn [snd]. intros HG. destruct l as [l|t u|t x path]; cbn [CoreHb.hstep CoreHbGraph.g_step].
    - destruct (step P FS cfg s l) as [s'| |]; intros [= <-]; cbn [snd]; [|by rewrite app_nil_r]. destruct l as [t o|t ch]; cbn [hlab label_tid].
      + by apply start_G.
      + destruct (stack s t) as [|i rest]; [by rewrite app_nil_r|by apply exec_G].
    - intros [= <-]. by apply G_hear.
    - destruct (stack s t); [|intros [= <-]; by rewrite app_nil_r]. destruct (live s x) as [h|]; intros [= <-]; [|by rewrite app_nil_r].
      cbn [snd]. rewrite fmap_cons, cons_middle, app_assoc. apply (walk_G s t x path h _ (learn t (made c x) c)). by apply G_begin.
  Qed.
  Lemma run_G ls : ∀ lg sc sc', G lg sc.2 → hrun sc ls = Some sc' → G (lg ++ g_run sc ls) sc'.2.
  Proof.
    induction ls as [|l ls IH]; intros lg sc sc' HG; cbn [CoreHb.hrun CoreHbGraph.g_run]; [intros [= <-]; by rewrite app_nil_r|].
    destruct (hstep sc l) as [sc1|] eqn:E1; [|done]. intros H. rewrite app_assoc. eapply IH; [by eapply step_G|done].
  Qed.
End Run.
