(** API calls, and every execution of [CoreHb.v]. *)
From Verif Require Export CoreHbExec.

Section Run.
  Context {K A R V : Type}.
  Context (P : policy K A R V) (FS : factory K) (cfg : config) (inc_sync : bool).
  Context (eqv : K → K → bool) (good : R → Prop).
  Context (Heq : equivalence eqv) (HP : policy_ok eqv good P) (HF : factory_spec eqv FS).
  Context (t0 : tid).

  Notation state := (state (R:=R) (K:=K) (A:=A) FS).
  Notation instr := (instr (K:=K) (A:=A) (R:=R)).
  Notation node := (node (R:=R)).
  Notation Inv := (Inv P FS cfg eqv good HF t0).
  Notation allowed := (allowed cfg t0).
  Notation own := (own P).
  Notation cnt := (cnt P FS).
  Notation kids n := (p_kids P (n_rep n)).
  Notation cov := (cov P FS cfg t0).
  Notation J := (J P FS cfg t0).
  Notation stk_is := (stk_is FS).
  Notation incr := (incr cfg inc_sync).
  Notation hcopy := (hcopy FS cfg inc_sync).
  Notation hstart := (hstart P FS cfg inc_sync).
  Notation hstep := (hstep P FS cfg inc_sync true true).
  Notation hrun := (hrun P FS cfg inc_sync true true).
  Notation start := (start P FS cfg).
  Notation ent_ok s s' := (∀ h, match entry s h, entry s' h with
          | Some n, Some n' => (∀ a, a ∈ kids n' ↔ a ∈ kids n) ∧ (p_val P (n_rep n') = None → p_val P (n_rep n) = None)
          | None, None => True | _, _ => False end).
  Implicit Types (s : state) (c : hb) (n : node) (h b : addr) (i : instr).

  Lemma made_closed c x : hwf c → closed c (made c x).
  Proof. intros W. unfold made. destruct (ob c !! x) as [[w r]|] eqn:E; [by destruct (w_ob _ W _ _ _ E)|apply closed_empty]. Qed.
  Lemma uses_closed c x : hwf c → closed c (uses c x).
  Proof. intros W. unfold uses. destruct (ob c !! x) as [[w r]|] eqn:E; [|apply closed_empty]. destruct (w_ob _ W _ _ _ E). by apply closed_union. Qed.
  Lemma made_uses c x : made c x ⊆ uses c x.
  Proof. unfold made, uses. destruct (ob c !! x) as [[w r]|]; set_solver. Qed.

  Lemma J_used s c t x h : Inv s → J s c → vars s !! x = Some (Some h) → J s (used t x c).
  Proof.
    intros HI HJ Hx. pose proof (j_wf _ _ _ _ _ _ HJ) as W. unfold used. destruct (ob c !! x) as [[w r]|] eqn:Hw; [|done].
    eapply (J_hb P FS cfg eqv good Heq HP HF t0 s c _ t []); try done.
    - apply set_ob_wf; [done|]. intros x' w' r' H. apply lookup_insert_Some in H as [[<- [= <- <-]]|[_ H]]; [|apply (w_ob _ W x' w' r' H)].
      destruct (w_ob _ W x w r Hw). split; [done|]. apply closed_union; [done|apply (w_kn _ W)].
    - intros h0. simpl. destruct (nd c !! h0) as [[??]|]; auto.
    - intros x'. simpl. destruct (decide (x' = x)) as [->|Hne].
      + rewrite Hw, lookup_insert. split; [done|set_solver].
      + rewrite lookup_insert_ne by done. destruct (ob c !! x') as [[??]|]; auto.
    - intros a Ha. by apply elem_of_nil in Ha.
    - intros a j Ha. by apply elem_of_nil in Ha.
    - intros a b j E Ha. by apply elem_of_nil in Ha.
  Qed.

  Lemma obj_W s c x h (E : gset nat) : J s c → vars s !! x = Some (Some h) → made c x ⊆ E → knowsW c E h.
  Proof.
    intros HJ Hx Hs. destruct (proj2 (j_ob _ _ _ _ _ _ HJ x)) as [[w r] Hw]; [by exists h|]. unfold made in Hs. rewrite Hw in Hs.
    pose proof (j_obj _ _ _ _ _ _ HJ x h w r Hx Hw) as HW. intros j F a Hj Ha Hwr. eapply Hs, HW; eauto.
  Qed.

  Lemma used_facts t y c : (∀ z, made (used t y c) z = made c z) ∧ (∀ u, knows (used t y c) u = knows c u) ∧
    (∀ z, uses (used t y c) z ⊆ uses c z ∪ knows c t).
  Proof.
    unfold used. destruct (ob c !! y) as [[w r]|] eqn:Hw; [|split_and!; [done|done|set_solver]]. split_and!.
    - intros z. unfold made. simpl. destruct (decide (z = y)) as [->|Hne]; [by rewrite lookup_insert, Hw|by rewrite lookup_insert_ne].
    - done.
    - intros z. unfold uses. simpl. destruct (decide (z = y)) as [->|Hne]; [rewrite lookup_insert, Hw; set_solver|rewrite lookup_insert_ne by done; set_solver].
  Qed.

  (** a flyweight is copied *)
  Lemma hcopy_J s c t y h : Inv s → J s c → live s y = Some h →
    let c' := hcopy s t y c in
    J s c' ∧ (∀ z, made c' z = made c z) ∧ knows c t ⊆ knows c' t ∧ made c y ⊆ knows c' t ∧ (∀ z, uses c' z ⊆ uses c z ∪ knows c' t).
  Proof.
    intros HI HJ Hy. assert (Hx : vars s !! y = Some (Some h)) by (unfold live in Hy; repeat case_match; congruence).
    cbv zeta. unfold CoreHb.hcopy. rewrite Hy. set (c1 := learn t (made c y) c). set (c' := used t y (incr t h c1)).
    assert (HJ1 : J s c1) by (eapply (J_learn P FS cfg eqv good Heq HP HF t0); [done|done|]; apply made_closed, HJ).
    assert (Hk1 : knows c1 t = knows c t ∪ made c y) by (unfold c1; by rewrite knows_learn, decide_True).
    assert (Hm1 : ∀ z, made c1 z = made c z) by done. assert (Hu1 : ∀ z, uses c1 z = uses c z) by done.
    pose proof (used_facts t y (incr t h c1)) as (Um&Uk&Uu).
    assert (F : J s c' ∧ (∀ z, made (incr t h c1) z = made c1 z) ∧ (∀ z, uses (incr t h c1) z = uses c1 z) ∧ knows c1 t ⊆ knows (incr t h c1) t).
    { unfold c', CoreHb.incr. destruct (trk cfg) eqn:Et; [|split; [by eapply J_used|done]].
      pose proof (rmw_rest inc_sync inc_sync t h c1) as (_&Ro&_). split_and!.
      - eapply (J_rmw P FS cfg eqv good Heq HP HF t0 s c1 t h _ _ (Some y)); try done; [by eapply var_cnt| |by exists h].
        eapply obj_W; [done|done|]. rewrite Hm1, Hk1. set_solver.
      - intros z. unfold made. by rewrite Ro.
      - intros z. unfold uses. by rewrite Ro.
      - rewrite knows_rmw, decide_True by done. set_solver. }
    destruct F as (HJ'&Fm&Fu&Fk). split_and!; [done|..].
    - intros z. unfold c'. by rewrite Um, Fm.
    - unfold c'. rewrite Uk. set_solver.
    - unfold c'. rewrite Uk. set_solver.
    - intros z. unfold c'. rewrite Uk. specialize (Uu z). rewrite Fu, Hu1 in Uu. done.
  Qed.

  Lemma hcopies_J s c t ys ks : Inv s → J s c → mapM (live s) ys = Some ks →
    let c' := foldl (λ c y, hcopy s t y c) c ys in
    J s c' ∧ (∀ z, made c' z = made c z) ∧ knows c t ⊆ knows c' t ∧ ∀ h, h ∈ ks → knowsW c' (knows c' t) h.
  Proof.
    intros HI HJ Hks%mapM_Some.
    assert (G : let c' := foldl (λ c y, hcopy s t y c) c ys in
      J s c' ∧ (∀ z, made c' z = made c z) ∧ knows c t ⊆ knows c' t ∧ ∀ y, y ∈ ys → made c y ⊆ knows c' t).
    { clear -HI HJ Hks Heq HP. revert c ks HJ Hks. induction ys as [|y ys IH]; intros c ks HJ Hks; simpl.
      - split_and!; [done..|]. intros y Hy. by apply elem_of_nil in Hy.
      - inversion Hks as [|? h ? ks' Hy Hys]; subst. destruct (hcopy_J s c t y h HI HJ Hy) as (HJ1&Hm1&Hk1&Hy1&_).
        destruct (IH _ ks' HJ1 Hys) as (HJ2&Hm2&Hk2&Hy2). split_and!; [done| | |].
        + intros z. by rewrite Hm2.
        + by etrans.
        + intros z [->|Hz]%elem_of_cons; [by etrans|]. rewrite <- Hm1. by apply Hy2. }
    destruct G as (HJ'&Hm&Hk&Hy). split_and!; [done..|]. intros h Hh. apply elem_of_list_lookup in Hh as [j Hj].
    destruct (Forall2_lookup_r _ _ _ _ _ Hks Hj) as (y&Hyj&Hl).
    eapply obj_W; [done| |]; [unfold live in Hl; repeat case_match; simplify_eq; done|]. rewrite Hm. apply Hy. by eapply elem_of_list_lookup_2.
  Qed.

  Lemma ent_copied s s0 s' hs : Inv s → copied P FS cfg s s0 hs → heap s' = heap s0 →
    ent_ok s s' ∧ (trk cfg = true → ∀ h n n', entry s h = Some n → entry s' h = Some n' → n_ref n' = 0%Z → n_ref n = 0%Z).
  Proof.
    intros HI [C1 _ _ _ _ _ _ _] Eh.
    assert (He : ∀ a, entry s' a = bumped cfg (occ a hs) <$> entry s a).
    { intros a. unfold entry. rewrite Eh, C1. destruct (heap s !! a) as [n|]; simpl; [|done].
      destruct (bumped_facts cfg (occ a hs) n) as (_&->&_). by destruct (n_linked n). }
    split.
    - intros h. rewrite He. destruct (entry s h) as [n|]; simpl; [|done]. destruct (bumped_facts cfg (occ h hs) n) as (->&_). done.
    - intros Et h n n' Hn Hn' H0. rewrite He, Hn in Hn'. simpl in Hn'. injection Hn' as <-. unfold bumped in H0. rewrite Et in H0. simpl in H0.
      pose proof (i_ref _ _ _ _ _ (i_C _ _ _ _ _ _ _ _ HI) Et h n Hn). destruct (n_linked n); simpl in H0; lia.
  Qed.

  Lemma J_begin s s' c m t new : J s c → stack s t = [] → stk_is s s' t new → lock s' = lock s → ent_ok s s' →
    (trk cfg = true → ∀ h n n', entry s h = Some n → entry s' h = Some n' → n_ref n' = 0%Z → n_ref n = 0%Z) →
    (∀ x w r, m !! x = Some (w, r) → closed c w ∧ closed c r) →
    (∀ x, is_Some (m !! x) ↔ ∃ h, vars s' !! x = Some (Some h)) →
    (∀ x h w r, vars s' !! x = Some (Some h) → m !! x = Some (w, r) →
       (vars s !! x = Some (Some h) ∧ ob c !! x = Some (w, r)) ∨ knowsW c w h) →
    (∀ h, 0 < lsum (own h) new → knowsW c (knows c t) h) →
    (trk cfg = true → ∀ x h w r e, vars s !! x = Some (Some h) → ob c !! x = Some (w, r) → e ∈ w ∪ r →
       (vars s' !! x = Some (Some h) ∧ m !! x = Some (w, r)) ∨
       (e ∈ knows c t ∧ (0 < lsum (own h) new ∨ ∃ x' w' r', vars s' !! x' = Some (Some h) ∧ m !! x' = Some (w', r') ∧ knows c t ⊆ w'))) →
    J s' (set_ob m c).
  Proof.
    intros HJ Hst Hsk Hl Hent Href Hcl Hdom Hobj Hthr Hcov. pose proof (Hsk t) as Hskt. rewrite decide_True in Hskt by done.
    eapply (J_st P FS cfg t0 s s' c _ t); try done.
    - apply set_ob_wf; [apply HJ|done].
    - by rewrite (public_lock FS cfg t0 s s').
    - intros u Hu. by rewrite Hsk, decide_False.
    - rewrite Hl. apply (j_mset _ _ _ _ _ _ HJ).
    - intros x h w r Hx Hw. destruct (Hobj x h w r Hx Hw) as [[??]|?]; [left|by right]. exists w, r. done.
    - intros i h Hi Ho. right. rewrite Hskt in Hi. apply Hthr, lsum_pos. eauto.
    - intros Et x h w r e Hx Hw He. destruct (Hcov Et x h w r e Hx Hw He) as [[??]|[Hk [Ho|(x'&w'&r'&?&?&?)]]].
      + by eapply cov_o.
      + apply lsum_pos in Ho as (i&Hi&Ho). eapply cov_t; [by rewrite Hskt|done|done].
      + eapply cov_o; [done|done|]. set_solver.
    - intros Et i h e Hi. rewrite Hst in Hi. by apply elem_of_nil in Hi.
    - intros Et h n n' Hn Hn' H0. left. split; [by eapply Href|]. intros i Hi. rewrite Hst in Hi. by apply elem_of_nil in Hi.
  Qed.

  Lemma ob_same c : set_ob (ob c) c = c.
  Proof. by destruct c. Qed.
  Lemma stk_same s s' t : stack s t = [] → stacks s' = stacks s → stk_is s s' t [].
  Proof. intros Hst E u. unfold stack in *. rewrite E. case_decide; by subst. Qed.

  Lemma uses_in c x w r : ob c !! x = Some (w, r) → w ∪ r ⊆ uses c x.
  Proof. intros E. unfold uses. by rewrite E. Qed.

  (** going to a flyweight inside a value *)
  Lemma inner_snoc s h0 pre h n j h' : inner P FS s h0 pre = Some (Some h) → entry s h = Some n → is_Some (p_val P (n_rep n)) →
    kids n !! j = Some h' → inner P FS s h0 (pre ++ [j]) = Some (Some h').
  Proof.
    intros Hin Hn [v Hv] Hj. revert h0 Hin. induction pre as [|i pre IH]; intros h0; simpl.
    - intros [= ->]. by rewrite Hn, Hv, Hj.
    - repeat case_match; try done. apply IH.
  Qed.
  Lemma inner_cov s path : ∀ h0 h, inner P FS s h0 path = Some (Some h) → ∀ c e, cov s c h0 e → cov s c h e.
  Proof.
    induction path as [|j path IH]; intros h0 h; simpl; [by intros [= ->]|].
    destruct (entry s h0) as [n|] eqn:Hn; [|done]. destruct (p_val P (n_rep n)); [|done]. destruct (kids n !! j) as [h'|] eqn:Hj; [|done].
    intros Hin c e Hc. eapply IH; [done|]. eapply cov_k; [done|by eapply elem_of_list_lookup_2|done].
  Qed.
  Lemma inner_W s c E path : J s c → closed c E → ∀ h0 h, knowsW c E h0 → inner P FS s h0 path = Some (Some h) → knowsW c E h.
  Proof.
    intros HJ HE. induction path as [|j path IH]; intros h0 h HW; simpl; [by intros [= ->]|].
    destruct (entry s h0) as [n|] eqn:Hn; [|done]. destruct (p_val P (n_rep n)); [|done]. destruct (kids n !! j) as [h'|] eqn:Hj; [|done].
    apply IH. eapply (knowsW_kid P FS cfg t0 s c E h0 n h'); [done|done| |done|done|by eapply elem_of_list_lookup_2].
    apply (j_nd _ _ _ _ _ _ HJ). by eexists.
  Qed.
  Lemma touch_facts t x h c : (∀ z, made (touch t x h c) z = made c z) ∧ knows c t ⊆ knows (touch t x h c) t.
  Proof.
    unfold touch. pose proof (used_facts t x (emit t [(MRep (idn c h), Read)] c)) as (Um&Uk&_).
    split; [intros z; by rewrite Um|]. rewrite Uk, knows_emit, decide_True by done. set_solver.
  Qed.
  Lemma hinner_J s t y h0 path : Inv s → vars s !! y = Some (Some h0) → ∀ pre h c, inner P FS s h0 pre = Some (Some h) → J s c → made c y ⊆ knows c t →
    let c' := hinner P FS cfg inc_sync s t y h path c in J s c' ∧ (∀ z, made c' z = made c z) ∧ knows c t ⊆ knows c' t.
  Proof.
    intros HI Hy. induction path as [|j path IH]; intros pre h c Hpre HJ Hk; cbn [hinner].
    all: assert (Hc : 0 < cnt s h) by (pose proof (inner_ok P FS cfg eqv good HF t0 s h0 pre HI ltac:(by eapply var_cnt)) as H; by rewrite Hpre in H).
    all: assert (HW : knowsW c (knows c t) h) by (eapply inner_W; [done|apply (w_kn _ (j_wf _ _ _ _ _ _ HJ))|by eapply obj_W|exact Hpre]).
    all: pose proof (inner_cov s pre h0 h Hpre) as Hcov.
    - pose proof (used_facts t y (incr t h c)) as (Um&Uk&_). unfold CoreHb.incr in *. destruct (trk cfg) eqn:Et.
      + pose proof (rmw_rest inc_sync inc_sync t h c) as (_&Ro&_). cbv zeta. split_and!.
        * eapply (J_rmw P FS cfg eqv good Heq HP HF t0 s c t h _ _ (Some y)); try done. by exists h0.
        * intros z. rewrite Um. unfold made. by rewrite Ro.
        * rewrite Uk, knows_rmw, decide_True by done. set_solver.
      + cbv zeta. split_and!; [by eapply J_used|done|by rewrite Uk].
    - destruct (i_hnd _ _ _ _ _ (i_C _ _ _ _ _ _ _ _ HI) h Hc) as (n&Hn&Hv). rewrite Hn.
      assert (HJ1 : J s (touch t y h c)).
      { eapply (J_touch P FS cfg eqv good Heq HP HF t0 s c t y h0 h); [done|done|done|by eexists|done|done|]. exists n. split; [done|]. by destruct Hv as [? ->]. }
      destruct (touch_facts t y h c) as [Fm Fk]. cbv zeta. destruct (kids n !! j) as [h'|] eqn:Hj; [|done].
      destruct (IH (pre ++ [j]) h' (touch t y h c)) as (I1&I2&I3); [by eapply inner_snoc|done|rewrite Fm; by etrans|].
      split_and!; [done| |by etrans]. intros z. by rewrite I2.
  Qed.

  (** API calls *)
  Lemma start_J s c t o s' : Inv s → J s c → stack s t = [] → start s t o = Next s' → J s' (hstart s t o c).
  Proof.
    intros HI HJ Hst. destruct o as [x p ys|x y|x y|x y|x|x|x y path]; simpl.
    - (* ONew *)
      destruct (vars s !! x) eqn:Hx; [done|]. destruct (mapM (live s) ys) as [ks|] eqn:Hks; [|done].
      destruct (hcopies_J s c t ys ks HI HJ Hks) as (HJ1&_&_&HW). set (c1 := foldl _ c ys) in *. apply mapM_Some in Hks.
      destruct (copy_handles_spec P FS cfg s ks) as (s1&Hs1&Hcp).
      { intros a Ha. apply elem_of_list_lookup in Ha as [j Hj]. destruct (Forall2_lookup_r _ _ _ _ _ Hks Hj) as (y&_&Hy).
        destruct (live_entry _ _ _ _ _ _ _ _ _ _ HI Hy) as (n&Hn&_). eauto. }
      rewrite Hs1. pose proof Hcp as [C1 C2 C3 C4 C5 C6 C7 C8].
      assert (G : ∀ new, (∀ h, 0 < lsum (own h) new → h ∈ ks) → J (set_stack t new (set_vars (<[x:=None]> (vars s1)) s1)) c1).
      { intros new Hnew. destruct (ent_copied s s1 (set_stack t new (set_vars (<[x:=None]> (vars s1)) s1)) ks HI Hcp eq_refl) as [He Hr].
        assert (Hvs : ∀ y b, <[x:=None]> (vars s1) !! y = Some (Some b) ↔ vars s !! y = Some (Some b)).
        { intros y b. rewrite C4, lookup_insert_Some. split; [by intros [[_ ?]|[_ ?]]|]. intros Hy. right. split; [congruence|done]. }
        rewrite <- (ob_same c1). eapply (J_begin s _ c1 (ob c1) t new); try done.
        - by apply stk_set.
        - intros z w r H. by apply (w_ob _ (j_wf _ _ _ _ _ _ HJ1) z).
        - intros z. rewrite (j_ob _ _ _ _ _ _ HJ1). split; intros [b Hb]; exists b; by apply Hvs.
        - intros z h w r Hz Hw. left. split; [by apply Hvs|done].
        - intros h Hh. by apply HW, Hnew.
        - intros _ z h w r e Hz Hw _. left. split; [by apply Hvs|done]. }
      destruct (p_make P p ks) as [r|] eqn:Hr; simpl; intros [= <-]; apply G.
      + intros h. rewrite lsum_cons, lsum_nil. simpl. rewrite Nat.add_0_r. destruct (po_make _ _ _ HP _ _ _ Hr) as [_ ->]. apply occ_pos.
      + intros h. rewrite lsum_app, lsum_own_release, lsum_cons, lsum_nil. simpl. rewrite !Nat.add_0_r. apply occ_pos.
    - (* OCopy *)
      destruct (vars s !! x) eqn:Hx; [done|]. destruct (live s y) as [h|] eqn:Hy; [|done].
      destruct (copy_handles_spec P FS cfg s [h]) as (s1&Hs1&Hcp).
      { intros a ->%elem_of_list_singleton. destruct (live_entry _ _ _ _ _ _ _ _ _ _ HI Hy) as (n&Hn&_). eauto. }
      simpl in Hs1. destruct (copy_handle FS cfg s h) as [s1'|]; simplify_eq. intros [= <-]. pose proof Hcp as [C1 C2 C3 C4 C5 C6 C7 C8].
      destruct (hcopy_J s c t y h HI HJ Hy) as (HJ1&Hm1&Hk1&Hy1&_). set (c1 := hcopy s t y c) in *. pose proof (j_wf _ _ _ _ _ _ HJ1) as W1.
      assert (Hvy : vars s !! y = Some (Some h)) by (unfold live in Hy; repeat case_match; congruence).
      destruct (ent_copied s s1 (add_log (EvCopy x y) (set_vars (<[x:=Some h]> (vars s1)) s1)) [h] HI Hcp eq_refl) as [He Hr].
      unfold fresh_ob. eapply (J_begin s _ c1 _ t []); try done.
      + by apply stk_same.
      + intros z w r H. apply lookup_insert_Some in H as [[_ [= <- <-]]|[_ H]]; [split; [apply (w_kn _ W1)|apply closed_empty]|by apply (w_ob _ W1 z)].
      + intros z. simpl. rewrite C4. destruct (decide (z = x)) as [->|Hne]; [rewrite !lookup_insert; split; [by exists h|by eexists]|].
        rewrite !lookup_insert_ne by done. apply (j_ob _ _ _ _ _ _ HJ1).
      + intros z b w r Hz Hw. simpl in Hz. rewrite C4 in Hz. destruct (decide (z = x)) as [->|Hne].
        * rewrite lookup_insert in Hz. rewrite lookup_insert in Hw. injection Hz as <-. injection Hw as <- <-. right. eapply obj_W; [done|done|]. by rewrite Hm1.
        * rewrite lookup_insert_ne in Hz by done. rewrite lookup_insert_ne in Hw by done. by left.
      + intros b. rewrite lsum_nil. lia.
      + intros _ z b w r e Hz Hw _. left. assert (z ≠ x) by congruence. simpl. rewrite C4, !lookup_insert_ne by done. done.
    - (* OAssign *)
      destruct (live s x) as [hx|] eqn:Hx; [|done]. destruct (live s y) as [hy|] eqn:Hy; [|done].
      destruct (copy_handles_spec P FS cfg s [hy]) as (s1&Hs1&Hcp).
      { intros a ->%elem_of_list_singleton. destruct (live_entry _ _ _ _ _ _ _ _ _ _ HI Hy) as (n&Hn&_). eauto. }
      simpl in Hs1. destruct (copy_handle FS cfg s hy) as [s1'|]; simplify_eq. intros [= <-]. pose proof Hcp as [C1 C2 C3 C4 C5 C6 C7 C8].
      assert (HJ0 : J s (learn t (uses c x) c)) by (eapply (J_learn P FS cfg eqv good Heq HP HF t0); [done|done|]; apply uses_closed, HJ).
      assert (Hk0 : uses (learn t (uses c x) c) x ⊆ knows (learn t (uses c x) c) t) by (rewrite knows_learn, decide_True by done; set_solver).
      set (c0 := learn t (uses c x) c) in *.
      destruct (hcopy_J s c0 t y hy HI HJ0 Hy) as (HJ1&Hm1&Hk1&Hy1&Hu1). set (c1 := hcopy s t y c0) in *. pose proof (j_wf _ _ _ _ _ _ HJ1) as W1.
      assert (Hvy : vars s !! y = Some (Some hy)) by (unfold live in Hy; repeat case_match; congruence).
      assert (Hvx : vars s !! x = Some (Some hx)) by (unfold live in Hx; repeat case_match; congruence).
      assert (Hux : uses c1 x ⊆ knows c1 t) by (specialize (Hu1 x); set_solver).
      set (s2 := add_log _ _). destruct (ent_copied s s1 s2 [hy] HI Hcp eq_refl) as [He Hr].
      unfold fresh_ob. eapply (J_begin s s2 c1 _ t [IRelease hx]); try done.
      + by apply stk_log, stk_set.
      + intros z w r H. apply lookup_insert_Some in H as [[_ [= <- <-]]|[_ H]]; [split; [apply (w_kn _ W1)|apply closed_empty]|by apply (w_ob _ W1 z)].
      + intros z. simpl. rewrite C4. destruct (decide (z = x)) as [->|Hne]; [rewrite !lookup_insert; split; [by exists hy|by eexists]|].
        rewrite !lookup_insert_ne by done. apply (j_ob _ _ _ _ _ _ HJ1).
      + intros z b w r Hz Hw. simpl in Hz. rewrite C4 in Hz. destruct (decide (z = x)) as [->|Hne].
        * rewrite lookup_insert in Hz. rewrite lookup_insert in Hw. injection Hz as <-. injection Hw as <- <-. right. eapply obj_W; [done|done|]. by rewrite Hm1.
        * rewrite lookup_insert_ne in Hz by done. rewrite lookup_insert_ne in Hw by done. by left.
      + intros b Hb. rewrite lsum_cons, lsum_nil in Hb. simpl in Hb. unfold at_ in Hb. case_decide; [subst b|lia].
        eapply obj_W; [done|done|]. etrans; [apply made_uses|done].
      + intros _ z b w r e Hz Hw Hin. destruct (decide (z = x)) as [->|Hne].
        * right. rewrite Hvx in Hz. injection Hz as <-. split; [by eapply Hux, uses_in|]. left. rewrite lsum_cons. simpl. rewrite at_eq. lia.
        * left. simpl. rewrite C4, !lookup_insert_ne by done. done.
    - (* OSwap *)
      destruct (live s x) as [hx|] eqn:Hx; [|done]. destruct (live s y) as [hy|] eqn:Hy; [|done]. intros [= <-].
      set (c1 := learn t (uses c x ∪ uses c y) c).
      assert (HJ1 : J s c1) by (eapply (J_learn P FS cfg eqv good Heq HP HF t0); [done|done|]; apply closed_union; apply uses_closed, HJ).
      assert (Hk : uses c1 x ∪ uses c1 y ⊆ knows c1 t) by (unfold c1; rewrite knows_learn, decide_True by done; unfold uses; simpl; set_solver).
      assert (Hvy : vars s !! y = Some (Some hy)) by (unfold live in Hy; repeat case_match; congruence).
      assert (Hvx : vars s !! x = Some (Some hx)) by (unfold live in Hx; repeat case_match; congruence).
      pose proof (j_wf _ _ _ _ _ _ HJ1) as W1. set (s2 := add_log _ _).
      change (fresh_ob t y (fresh_ob t x c1)) with (set_ob (<[y:=(knows c1 t, ∅)]> (<[x:=(knows c1 t, ∅)]> (ob c1))) c1).
      eapply (J_begin s s2 c1 _ t []); try done.
      + by apply stk_same.
      + by apply ent_same.
      + intros _ b n n' Hn Hn'. change (entry s b = Some n') in Hn'. congruence.
      + intros z w r H. apply lookup_insert_Some in H as [[_ [= <- <-]]|[_ H]]; [split; [apply (w_kn _ W1)|apply closed_empty]|].
        apply lookup_insert_Some in H as [[_ [= <- <-]]|[_ H]]; [split; [apply (w_kn _ W1)|apply closed_empty]|by apply (w_ob _ W1 z)].
      + intros z. simpl. destruct (decide (z = y)) as [->|Hne]; [rewrite !lookup_insert; split; [by exists hx|by eexists]|].
        rewrite !(lookup_insert_ne _ y) by done. destruct (decide (z = x)) as [->|Hne']; [rewrite !lookup_insert; split; [by exists hy|by eexists]|].
        rewrite !lookup_insert_ne by done. apply (j_ob _ _ _ _ _ _ HJ1).
      + intros z b w r Hz Hw. simpl in Hz. destruct (decide (z = y)) as [->|Hne].
        { rewrite lookup_insert in Hz. rewrite lookup_insert in Hw. injection Hz as <-. injection Hw as <- <-. right. eapply obj_W; [done|exact Hvx|].
          etrans; [apply made_uses|]. set_solver. }
        rewrite lookup_insert_ne in Hz by done. rewrite lookup_insert_ne in Hw by done. destruct (decide (z = x)) as [->|Hne'].
        { rewrite lookup_insert in Hz. rewrite lookup_insert in Hw. injection Hz as <-. injection Hw as <- <-. right. eapply obj_W; [done|exact Hvy|].
          etrans; [apply made_uses|]. set_solver. }
        rewrite lookup_insert_ne in Hz by done. rewrite lookup_insert_ne in Hw by done. by left.
      + intros b. rewrite lsum_nil. lia.
      + intros _ z b w r e Hz Hw Hin. pose proof (uses_in c1 z w r Hw) as Hi. destruct (decide (z = x)) as [->|Hne].
        { right. rewrite Hvx in Hz. injection Hz as <-. split; [set_solver|]. right. exists y, (knows c1 t), ∅. simpl. by rewrite !lookup_insert. }
        destruct (decide (z = y)) as [->|Hne'].
        { right. rewrite Hvy in Hz. injection Hz as <-. split; [set_solver|]. right. exists x, (knows c1 t), ∅. simpl.
          rewrite !(lookup_insert_ne _ y) by done. by rewrite !lookup_insert. }
        left. simpl. by rewrite !lookup_insert_ne.
    - (* ODestroy *)
      destruct (live s x) as [h|] eqn:Hx; [|done]. intros [= <-]. set (c1 := learn t (uses c x) c).
      assert (HJ1 : J s c1) by (eapply (J_learn P FS cfg eqv good Heq HP HF t0); [done|done|]; apply uses_closed, HJ).
      assert (Hk : uses c1 x ⊆ knows c1 t) by (unfold c1; rewrite knows_learn, decide_True by done; unfold uses; simpl; set_solver).
      assert (Hvx : vars s !! x = Some (Some h)) by (unfold live in Hx; repeat case_match; congruence).
      pose proof (j_wf _ _ _ _ _ _ HJ1) as W1. set (s2 := add_log _ _).
      eapply (J_begin s s2 c1 _ t [IRelease h]); try done.
      + by apply stk_log, stk_set.
      + by apply ent_same.
      + intros _ b n n' Hn Hn'. change (entry s b = Some n') in Hn'. congruence.
      + intros z w r H. apply lookup_delete_Some in H as [_ H]. by apply (w_ob _ W1 z).
      + intros z. simpl. destruct (decide (z = x)) as [->|Hne]; [rewrite !lookup_delete; split; [by intros []|by intros []]|].
        rewrite !lookup_delete_ne by done. apply (j_ob _ _ _ _ _ _ HJ1).
      + intros z b w r Hz Hw. simpl in Hz. apply lookup_delete_Some in Hz as [_ Hz]. apply lookup_delete_Some in Hw as [_ Hw]. by left.
      + intros b Hb. rewrite lsum_cons, lsum_nil in Hb. simpl in Hb. unfold at_ in Hb. case_decide; [subst b|lia].
        eapply obj_W; [done|done|]. etrans; [apply made_uses|done].
      + intros _ z b w r e Hz Hw Hin. destruct (decide (z = x)) as [->|Hne].
        * right. rewrite Hvx in Hz. injection Hz as <-. split; [by eapply Hk, uses_in|]. left. rewrite lsum_cons. simpl. rewrite at_eq. lia.
        * left. simpl. by rewrite !lookup_delete_ne.
    - (* OGet *)
      destruct (live s x) as [h|] eqn:Hx; [|done]. destruct (live_entry _ _ _ _ _ _ _ _ _ _ HI Hx) as (n&Hn&v&Hv). rewrite Hn, Hv. intros [= <-].
      assert (Hvx : vars s !! x = Some (Some h)) by (unfold live in Hx; repeat case_match; congruence).
      set (c1 := learn t (made c x) c).
      assert (HJ1 : J s c1) by (eapply (J_learn P FS cfg eqv good Heq HP HF t0); [done|done|]; apply made_closed, HJ).
      assert (HJ2 : J s (touch t x h c1)).
      { eapply (J_touch P FS cfg eqv good Heq HP HF t0 s c1 t x h h); [done|done|done|by eexists|done| |exists n; split; [done|congruence]].
        eapply obj_W; [done|done|]. unfold c1. rewrite knows_learn, decide_True by done. unfold made. simpl. set_solver. }
      rewrite <- (ob_same (touch t x h c1)). eapply (J_begin s _ _ _ t []); try done.
      + by apply stk_same.
      + by apply ent_same.
      + intros _ b m n' Hm Hn'. change (entry s b = Some n') in Hn'. congruence.
      + intros z w r H. by apply (w_ob _ (j_wf _ _ _ _ _ _ HJ2) z).
      + apply (j_ob _ _ _ _ _ _ HJ2).
      + intros z b w r Hz Hw. by left.
      + intros b. rewrite lsum_nil. lia.
      + intros _ z b w r e Hz Hw _. by left.
    - (* OInner *)
      destruct (vars s !! x) eqn:Hx; [done|]. destruct (live s y) as [h0|] eqn:Hy; [|done].
      destruct (inner_live P FS cfg eqv good HF t0 s y h0 path HI Hy) as [->|(h&n&Hin&Hc&Hn&_)]; [done|]. rewrite Hin, Hn.
      destruct (copy_handles_spec P FS cfg s [h]) as (s1&Hs1&Hcp); [intros a ->%elem_of_list_singleton; eauto|].
      simpl in Hs1. destruct (copy_handle FS cfg s h) as [s1'|]; simplify_eq. intros [= <-]. pose proof Hcp as [C1 C2 C3 C4 C5 C6 C7 C8].
      assert (Hvy : vars s !! y = Some (Some h0)) by (unfold live in Hy; repeat case_match; congruence).
      set (c0 := learn t (made c y) c).
      assert (HJ0 : J s c0) by (eapply (J_learn P FS cfg eqv good Heq HP HF t0); [done|done|]; apply made_closed, HJ).
      assert (Hk0 : made c0 y ⊆ knows c0 t) by (unfold c0; rewrite knows_learn, decide_True by done; unfold made; simpl; set_solver).
      destruct (hinner_J s t y h0 path HI Hvy [] h0 c0 eq_refl HJ0 Hk0) as (HJ1&Hm1&Hk1). set (c1 := hinner P FS cfg inc_sync s t y h0 path c0) in *.
      pose proof (j_wf _ _ _ _ _ _ HJ1) as W1.
      assert (HW : knowsW c1 (knows c1 t) h).
      { eapply inner_W; [done|apply (w_kn _ W1)| |exact Hin]. eapply obj_W; [done|done|]. rewrite Hm1. by etrans. }
      set (s2 := add_log _ _). destruct (ent_copied s s1 s2 [h] HI Hcp eq_refl) as [He Hr].
      unfold fresh_ob. eapply (J_begin s s2 c1 _ t []); try done.
      + by apply stk_same.
      + intros z w r H. apply lookup_insert_Some in H as [[_ [= <- <-]]|[_ H]]; [split; [apply (w_kn _ W1)|apply closed_empty]|by apply (w_ob _ W1 z)].
      + intros z. simpl. rewrite C4. destruct (decide (z = x)) as [->|Hne]; [rewrite !lookup_insert; split; [by exists h|by eexists]|].
        rewrite !lookup_insert_ne by done. apply (j_ob _ _ _ _ _ _ HJ1).
      + intros z b w r Hz Hw. simpl in Hz. rewrite C4 in Hz. destruct (decide (z = x)) as [->|Hne].
        * rewrite lookup_insert in Hz. rewrite lookup_insert in Hw. injection Hz as <-. injection Hw as <- <-. by right.
        * rewrite lookup_insert_ne in Hz by done. rewrite lookup_insert_ne in Hw by done. by left.
      + intros b. rewrite lsum_nil. lia.
      + intros _ z b w r e Hz Hw _. left. assert (z ≠ x) by congruence. simpl. rewrite C4, !lookup_insert_ne by done. done.
  Qed.

  (** reading the flyweights in values *)
  Lemma walk_J s t x h0 path : Inv s → vars s !! x = Some (Some h0) → ∀ h c n, J s c → entry s h = Some n → p_val P (n_rep n) ≠ None →
    (∀ c e, cov s c h0 e → cov s c h e) → knowsW c (knows c t) h → J s (walk P FS s t x h path c).
  Proof.
    intros HI Hx. induction path as [|j path IH]; intros h c n HJ Hn Hv Hcov HW; cbn [walk].
    all: assert (HJ1 : J s (touch t x h c)) by (eapply (J_touch P FS cfg eqv good Heq HP HF t0 s c t x h0 h); [done|done|done|by eexists|done|done|by exists n]).
    all: try done.
    rewrite Hn. destruct (kids n !! j) as [h'|] eqn:Hj; [|done]. apply elem_of_list_lookup_2 in Hj.
    destruct (i_hnd _ _ _ _ _ (i_C _ _ _ _ _ _ _ _ HI) h') as (n'&Hn'&Hv'); [by eapply kid_cnt|].
    apply (IH h' _ n'); [done|done|by destruct Hv' as [? ->]| |].
    - intros c' e Hc. eapply cov_k; [exact Hn|done|by apply Hcov].
    - destruct (proj2 (j_nd _ _ _ _ _ _ HJ1 h)) as [[i E] Hi]; [by eexists|].
      eapply (knowsW_kid P FS cfg t0 s _ _ h n h'); [done|apply (w_kn _ (j_wf _ _ _ _ _ _ HJ1))|by eexists| |done|done].
      assert (F : nd (touch t x h c) = nd c ∧ tr (touch t x h c) = Acc (nxt c) t (MRep (idn c h)) Read :: tr c ∧ knows c t ⊆ knows (touch t x h c) t).
      { unfold touch. pose proof (used_facts t x (emit t [(MRep (idn c h), Read)] c)) as (_&Uk&_). rewrite Uk, knows_emit, decide_True by done.
        unfold used. simpl. destruct (ob c !! x) as [[??]|]; simpl; split_and!; try done; set_solver. }
      destruct F as (Fn&Ft&Fk). intros j0 F0 a Hj0 Ha Hw. rewrite Fn in Hj0. rewrite Ft in Ha. apply elem_of_cons in Ha as [->|Ha].
      + destruct Hw as [[_ []]|[? _]]; done.
      + eapply Fk, HW; eauto.
  Qed.

  (** ** All executions *)
  Definition HInv (sc : state * hb) : Prop := Inv sc.1 ∧ J sc.1 sc.2.

  Lemma hinit_inv : HInv (init FS, hinit).
  Proof.
    assert (Hn : ∀ h, nd hinit !! h = None) by (intros h; apply lookup_empty). assert (He : ∀ h, entry (init FS : state) h = None) by (intros h; unfold entry; simpl; by rewrite lookup_empty).
    assert (Ho : ∀ x, ob hinit !! x = None) by (intros x; apply lookup_empty). assert (Ht : ∀ a : acc, a ∉ tr hinit) by (intros a; apply not_elem_of_nil).
    assert (Hs : ∀ t, stack (init FS : state) t = []) by (intros t; unfold stack; simpl; by rewrite lookup_empty).
    split; [by apply init_inv|]. cbn [fst snd]. split.
    - split.
      + intros e D H. simpl in H. by rewrite lookup_empty in H.
      + intros e D H. simpl in H. by rewrite lookup_empty in H.
      + intros t. unfold knows. simpl. rewrite lookup_empty. apply closed_empty.
      + apply closed_empty.
      + intros h i E H. by rewrite Hn in H.
      + intros x w r H. by rewrite Ho in H.
      + intros a Ha. by apply Ht in Ha.
      + intros a b Ha. by apply Ht in Ha.
    - intros h. rewrite Hn, He. split; by intros [].
    - intros h j E H. by rewrite Hn in H.
    - intros h h' j E E' H. by rewrite Hn in H.
    - intros a j Ha. by apply Ht in Ha.
    - intros x. rewrite Ho. simpl. split; [by intros []|]. intros [h Hh]. by rewrite lookup_empty in Hh.
    - done.
    - intros a Ha. by apply Ht in Ha.
    - intros h j E a H. by rewrite Hn in H.
    - intros h j E a H. by rewrite Hn in H.
    - intros x h w r _ H. by rewrite Ho in H.
    - intros t i h Hi. rewrite Hs in Hi. by apply elem_of_nil in Hi.
    - intros b n h j E D Hb. by rewrite He in Hb.
    - intros h j E n a H. by rewrite Hn in H.
    - intros _ h j E a H. by rewrite Hn in H.
    - intros _ h j E n H. by rewrite Hn in H.
  Qed.

  Lemma hstep_inv sc l : HInv sc → allowed (hlabel_tid l) → ∃ sc', hstep sc l = Some sc' ∧ HInv sc'.
  Proof.
    destruct sc as [s c]. intros [HI HJ] Hal. simpl in HI, HJ. destruct l as [l|t u|t x path]; simpl in *.
    - pose proof (step_ok P FS cfg eqv good Heq HP HF t0 s l HI Hal) as Hs. destruct (step P FS cfg s l) as [s'| |] eqn:El; [| |done].
      + eexists. split; [done|]. split; [done|]. simpl. destruct l as [t o|t ch]; simpl in *.
        * destruct (stack s t) eqn:Hst; [|done]. by apply start_J.
        * destruct (stack s t) as [|i rest] eqn:Hst; [done|]. by eapply (exec_J P FS cfg inc_sync eqv good Heq HP HF t0 s c t i rest).
      + eexists. split; [done|]. done.
    - eexists. split; [done|]. split; [done|]. simpl. eapply (J_learn P FS cfg eqv good Heq HP HF t0); [done|done|]. apply (w_kn _ (j_wf _ _ _ _ _ _ HJ)).
    - destruct (stack s t); [|by eexists]. destruct (live s x) as [h|] eqn:Hx; [|by eexists]. eexists. split; [done|]. split; [done|]. simpl.
      destruct (live_entry _ _ _ _ _ _ _ _ _ _ HI Hx) as (n&Hn&v&Hv).
      assert (Hvx : vars s !! x = Some (Some h)) by (unfold live in Hx; repeat case_match; congruence).
      assert (HJ1 : J s (learn t (made c x) c)) by (eapply (J_learn P FS cfg eqv good Heq HP HF t0); [done|done|]; apply made_closed, HJ).
      eapply (walk_J s t x h path HI Hvx h _ n); [done|done|congruence|done|].
      eapply obj_W; [done|done|]. rewrite knows_learn, decide_True by done. unfold made. simpl. set_solver.
  Qed.

  Lemma hrun_inv sc ls : HInv sc → Forall (λ l, allowed (hlabel_tid l)) ls → ∃ sc', hrun sc ls = Some sc' ∧ HInv sc'.
  Proof.
    intros H Hal. revert sc H. induction Hal as [|l ls Hl _ IH]; intros sc H; simpl; [eauto|].
    destruct (hstep_inv sc l H Hl) as (sc'&->&H'). by apply IH.
  Qed.
End Run.
