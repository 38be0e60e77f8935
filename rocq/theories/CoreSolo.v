(** Complete outcome of one flyweight construction that is not interleaved
    with other threads (other threads may be anywhere in their own
    operations). *)
From Verif Require Export CoreLive.

Section Solo.
  Context {K A R V : Type}.
  Context (P : policy K A R V) (FS : factory K) (cfg : config).
  Context (eqv : K → K → bool) (good : R → Prop).
  Context (Heq : equivalence eqv) (HP : policy_ok eqv good P) (HF : factory_spec eqv FS).
  Context (t0 : tid).

  Notation state := (state (R:=R) (K:=K) (A:=A) FS).
  Notation instr := (instr (K:=K) (A:=A) (R:=R)).
  Notation node := (node (R:=R)).
  Notation label := (label (A:=A)).
  Notation event := (event (K:=K) (R:=R)).
  Notation tsum := (tsum FS).
  Notation cnt := (cnt P FS).
  Notation Inv := (Inv P FS cfg eqv good HF t0).
  Notation allowed := (allowed cfg t0).
  Notation step := (step P FS cfg).
  Notation run := (run P FS cfg).
  Notation reachable := (reachable P FS cfg t0).
  Notation done_node n := (is_Some (p_val P (n_rep n))).
  Implicit Types (s : state) (n m : node) (a b h : addr) (t : tid) (i : instr).

  (** contents and identity of the entry at [b] *)
  Definition shape s (b : addr) : option (R * nat) := (λ n, (n_rep n, n_stamp n)) <$> entry s b.

  Lemma shape_same s s' : same_shape FS s s' → ∀ b, shape s' b = shape s b.
  Proof.
    intros [H1 H2] b. unfold shape. destruct (entry s b) as [n|] eqn:E.
    - destruct (H1 _ _ E) as (m&->&Hr&Hs). simpl. by rewrite Hr, Hs.
    - destruct (entry s' b) as [m|] eqn:E'; [|done]. destruct (H2 _ _ E') as (n&?&_). congruence.
  Qed.
  Lemma shape_entry s s' b n : shape s' b = shape s b → entry s b = Some n →
    ∃ m, entry s' b = Some m ∧ n_rep m = n_rep n ∧ n_stamp m = n_stamp n.
  Proof.
    unfold shape. intros E Hn. rewrite Hn in E. destruct (entry s' b) as [m|]; simplify_eq/=. eauto.
  Qed.

  Definition built (p : A) (r : R) : R := match p_val P r with Some _ => r | None => p_build P p r end.

  (** what a successful construction for rep [r] does to the stored values;
      [bs]: value constructions performed *)
  Definition content s s' (p : A) (r : R) (h : addr) (bs : list event) : Prop :=
    (∃ n, entry s h = Some n ∧ done_node n ∧ eqv (p_key P (n_rep n)) (p_key P r) = true ∧
       (∀ b, shape s' b = shape s b) ∧ bs = []) ∨
    (entry s h = None ∧ (∀ b n, entry s b = Some n → eqv (p_key P (n_rep n)) (p_key P r) = false) ∧
       (∀ b, b ≠ h → shape s' b = shape s b) ∧
       (∃ n, entry s' h = Some n ∧ n_rep n = built p r) ∧
       bs = match p_val P r with Some _ => [] | None => [EvBuild h (p_key P r)] end).

  Section new.
    Context (s : state) (t : tid) (x : var) (p : A) (ks : list addr).
    Context (HI0 : Inv s) (Hal : allowed t) (Ht0 : stack s t = []) (Hx : vars s !! x = None).
    Context (Hks : ∀ a, a ∈ ks → ∃ y, vars s !! y = Some (Some a)).

    Definition okU (i : instr) : Prop :=
      match i with IUnlock | IFree _ => True | IRelease a => a ∈ ks | _ => False end.

    Inductive phase (s' : state) : Prop :=
    | Pfind r : p_make P p ks = Some r →
        stack s' t = [ILockFind x p r] ∨ stack s' t = [IFind x p r] →
        vars s' = <[x:=None]> (vars s) → (∀ b, shape s' b = shape s b) → log s' = log s → phase s'
    | Phit r h n : p_make P p ks = Some r →
        stack s' t = [IVisit x h p (p_kids P r) (p_key P r)] →
        entry s h = Some n → done_node n → eqv (p_key P (n_rep n)) (p_key P r) = true →
        vars s' = <[x:=None]> (vars s) → (∀ b, shape s' b = shape s b) → log s' = log s → phase s'
    | Pmiss r h n : p_make P p ks = Some r →
        stack s' t = [IVisit x h p [] (p_key P r)] →
        entry s h = None → (∀ b n, entry s b = Some n → eqv (p_key P (n_rep n)) (p_key P r) = false) →
        (∀ b, b ≠ h → shape s' b = shape s b) → entry s' h = Some n → n_rep n = r →
        vars s' = <[x:=None]> (vars s) → log s' = log s → phase s'
    | Pref r h bs kk : p_make P p ks = Some r →
        stack s' t = [IAddRef x h kk (p_key P r)] ∨ stack s' t = [IAddDel x h kk (p_key P r)] →
        (∀ a, a ∈ kk → a ∈ ks) → content s s' p r h bs →
        vars s' = <[x:=None]> (vars s) → log s' = bs ++ log s → phase s'
    | Pok r h bs l : p_make P p ks = Some r →
        stack s' t = l ++ [IBind x h (p_key P r)] → Forall okU l → (∀ a, IFree a ∉ l) → content s s' p r h bs →
        vars s' = <[x:=None]> (vars s) → log s' = bs ++ log s → phase s'
    | Pdone r h bs : p_make P p ks = Some r → stack s' t = [] → content s s' p r h bs →
        vars s' = <[x:=Some h]> (vars s) → log s' = EvNew x (p_key P r) :: bs ++ log s → phase s'
    | Punw l es : stack s' t = l ++ [IAbort x] → Forall okU l →
        vars s' = <[x:=None]> (vars s) → (∀ b, shape s' b = shape s b) →
        es = [] ∨ (∃ h k, es = [EvErase h k]) → log s' = es ++ log s → phase s'
    | Pthrown es : stack s' t = [] → vars s' = vars s → (∀ b, shape s' b = shape s b) →
        es = [] ∨ (∃ h k, es = [EvErase h k]) → log s' = EvThrow x :: es ++ log s → phase s'.

    Lemma stack_same s' s1 new : stack (set_stack t new s1) t = new.
    Proof. by rewrite stack_set, decide_True. Qed.

    Lemma okU_release kk : (∀ a, a ∈ kk → a ∈ ks) → Forall okU (map IRelease kk).
    Proof.
      intros H. apply Forall_forall. intros i (a&->&Ha)%elem_of_list_fmap. by apply H.
    Qed.

    Lemma kids_in r a : p_make P p ks = Some r → a ∈ p_kids P r → a ∈ ks.
    Proof.
      intros Hr Ha. destruct (po_make _ _ _ HP _ _ _ Hr) as [_ Ho]. apply occ_pos. rewrite <- Ho.
      by apply occ_pos.
    Qed.

    Lemma heap_shape s' s1 : heap s1 = heap s' → ∀ b, shape s1 b = shape s' b.
    Proof. intros E b. unfold shape, entry. by rewrite E. Qed.
    Lemma put_shape s' h n n' : entry s' h = Some n → n_rep n' = n_rep n → n_stamp n' = n_stamp n →
      n_linked n' = true → ∀ b, shape (put h n' s') b = shape s' b.
    Proof.
      intros Hn Hr Hs Hl b. unfold shape. rewrite entry_put, Hl. destruct (decide (b = h)) as [->|]; [|done].
      rewrite Hn. simpl. by rewrite Hr, Hs.
    Qed.

    Lemma content_shape s1 s2 r h bs : (∀ b, shape s2 b = shape s1 b) → content s s1 p r h bs → content s s2 p r h bs.
    Proof.
      intros E [(n&Hn&Hd&Hk&Hb&->)|(Hn&Hm&Hb&(n&Hh&Hr)&->)].
      - left. exists n. split_and!; try done. intros b. by rewrite E.
      - right. split_and!; try done.
        + intros b Hne. rewrite E. by apply Hb.
        + destruct (shape_entry _ _ _ _ (E h) Hh) as (m&?&?&_). exists m. split; congruence.
    Qed.

    (** a release of an argument still referenced by a variable only
        decrements *)
    Lemma release_live s' a rest y c s'' : Inv s' → stack s' t = IRelease a :: rest →
      vars s' !! y = Some (Some a) → exec P FS cfg s' t (IRelease a) rest c = Next s'' →
      stack s'' t = rest ∧ vars s'' = vars s' ∧ log s'' = log s' ∧ ∀ b, shape s'' b = shape s' b.
    Proof.
      intros HI Hst Hy. simpl. destruct (trk cfg) eqn:Et.
      - destruct (var_entry P FS cfg eqv good HF t0 _ _ _ HI Hy) as (n&Hn&Hd). rewrite Hn.
        pose proof Hn as [Hh Hl]%entry_heap.
        assert (Hc : 2 ≤ cnt s' a).
        { pose proof (msum_ge (vcount a) _ _ _ Hy) as E1. simpl in E1. rewrite at_eq in E1.
          pose proof (tsum_elem _ (own P a) s' t (IRelease a)) as E2. rewrite Hst in E2. simpl in E2.
          rewrite at_eq in E2. specialize (E2 ltac:(by left)). unfold CoreInv.cnt, CoreInv.vsum. lia. }
        pose proof HI as [_ HC _]. pose proof (i_ref _ _ _ _ _ HC Et _ _ Hn).
        rewrite decide_False by lia. intros [= <-]. split_and!; try done.
        + by rewrite stack_set, decide_True.
        + intros b. transitivity (shape (put a (with_ref n (n_ref n - 1)) s') b); [by apply heap_shape|].
          by apply (put_shape _ _ n).
      - intros [= <-]. split_and!; try done. by rewrite stack_set, decide_True.
    Qed.

    (** one step inside a list of unwinding instructions *)
    Lemma okU_step s' i rest c s'' : Inv s' → vars s' = <[x:=None]> (vars s) →
      stack s' t = i :: rest → okU i → exec P FS cfg s' t i rest c = Next s'' →
      stack s'' t = rest ∧ vars s'' = vars s' ∧ log s'' = log s' ∧ ∀ b, shape s'' b = shape s' b.
    Proof.
      intros HI Hv Hst Hok He. destruct i; simpl in Hok; try done.
      - simpl in He. unfold unlock in He. repeat case_match; simplify_eq;
          (split_and!; try done; by rewrite stack_set, decide_True).
      - destruct (Hks _ Hok) as [y Hy]. eapply (release_live s' _ _ y); try done. rewrite Hv.
        rewrite lookup_insert_ne; [done|]. intros ->. congruence.
      - simpl in He. destruct (heap s' !! h) as [n|] eqn:Hh; [|done]. destruct (n_linked n) eqn:Hl; simplify_eq.
        split_and!; try done; [by rewrite stack_set, decide_True|].
        intros b. unfold shape, entry. simpl. destruct (decide (b = h)) as [->|Hne].
        + by rewrite lookup_delete, Hh, Hl.
        + by rewrite lookup_delete_ne.
    Qed.

    Lemma phase_step s' c s'' : Inv s' → (∀ t', t' ≠ t → stack s' t' = stack s t') →
      phase s' → step s' (LRun t c) = Next s'' → phase s''.
    Proof.
      intros HI Hoth Hph Hstep. simpl in Hstep. pose proof HI as [HH HC HS].
      destruct Hph as [r Hr Hst Hv Hsh Hlg|r h n Hr Hst Hn Hd Hk Hv Hsh Hlg
        |r h n Hr Hst Hn Hm Hsh Hn' Hnr Hv Hlg
        |r h bs kk Hr Hst Hkk Hco Hv Hlg|r h bs l Hr Hst Hl Hnf Hco Hv Hlg|r h bs Hr Hst Hco Hv Hlg
        |l es Hst Hl Hv Hsh Hes Hlg|es Hst Hv Hsh Hes Hlg].
      - destruct Hst as [Hst|Hst]; rewrite Hst in Hstep; simpl in Hstep.
        + unfold acquire in Hstep. repeat case_match; simplify_eq;
            (eapply (Pfind _ r); try done; right; by rewrite stack_set, decide_True).
        + destruct (c_throw c).
          { simplify_eq. eapply (Punw _ (IUnlock :: map IRelease (p_kids P r)) []); try done; [| |by left].
            - rewrite stack_set, decide_True by done. unfold unwind. by rewrite app_nil_r.
            - constructor; [done|]. apply okU_release. intros a. by apply kids_in. }
          destruct (f_find FS (cont s') (kview P s') (p_key P r)) as [h| |] eqn:Hf; simplify_eq.
          * destruct (fi_found _ _ HF _ _ _ _ _ (i_fac _ _ _ _ _ _ HH) Hf) as (Hin&k'&Hk'&Hke).
            apply kview_inv in Hk' as (n&Hn&->).
            destruct (shape_entry _ _ _ _ (eq_sym (Hsh h)) Hn) as (m&Hm&Hmr&_).
            assert (Hd : done_node m).
            { destruct (p_val P (n_rep m)) eqn:Hv0; [by eauto|]. exfalso. pose proof HI0 as [_ HC0 _].
              destruct (i_undone _ _ _ _ _ HC0 _ _ Hm Hv0) as (_&_&t1&y&p'&kk&k'&rest&Ht1).
              assert (t1 ≠ t) by (intros ->; congruence).
              assert (t1 = t); [|done]. eapply (excl FS cfg t0 s'); [done| |].
              - rewrite Hoth, Ht1 by done. rewrite lsum_cons. simpl. lia.
              - rewrite Hst. rewrite lsum_cons. simpl. lia. }
            eapply (Phit _ r h m); try done; [by rewrite stack_set, decide_True|congruence].
          * destruct (heap s' !! c_addr c) eqn:Ha; simplify_eq.
            assert (Hen : ∀ b, entry s' b = None → entry s b = None).
            { intros b Hb. destruct (entry s b) as [n|] eqn:En; [|done].
              destruct (shape_entry _ _ _ _ (Hsh b) En) as (?&?&_). congruence. }
            set (s1 := put (c_addr c) (Node r 0 0 true (clock s')) s') in *.
            eapply (Pmiss _ r (c_addr c) (Node r 0 0 true (clock s'))); try done.
            -- by rewrite stack_set, decide_True.
            -- apply Hen. unfold entry. by rewrite Ha.
            -- intros b n Hb. destruct (shape_entry _ _ _ _ (Hsh b) Hb) as (m&Hm&Hmr&_). rewrite <- Hmr.
               eapply (fi_notfound _ _ HF); [apply HH|done| |].
               ++ apply elem_of_linked. eauto.
               ++ by apply kview_entry.
            -- intros b Hne. rewrite <- Hsh. unfold shape, entry. simpl. by rewrite lookup_insert_ne.
            -- unfold entry. simpl. by rewrite lookup_insert.
      - rewrite Hst in Hstep. simpl in Hstep. destruct (shape_entry _ _ _ _ (Hsh h) Hn) as (m&Hm&Hmr&_).
        rewrite Hm in Hstep. destruct Hd as [v Hd]. rewrite Hmr, Hd in Hstep. simplify_eq.
        eapply (Pref _ r h [] (p_kids P r)); try done.
        + left. by rewrite stack_set, decide_True.
        + intros a. by apply kids_in.
        + left. exists n. split_and!; eauto.
      - rewrite Hst in Hstep. simpl in Hstep. rewrite Hn' in Hstep. pose proof Hn' as [Hh Hl]%entry_heap.
        destruct (p_val P (n_rep n)) as [v|] eqn:Hv0.
        { simplify_eq. eapply (Pref _ (n_rep n) h [] []); try done.
          - left. by rewrite stack_set, decide_True.
          - by intros a ?%elem_of_nil.
          - right. split_and!; try done.
            + exists n. split; [done|]. unfold built. by rewrite Hv0.
            + by rewrite Hv0. }
        destruct (c_throw c); simplify_eq.
        + eapply (Punw _ (map IRelease (p_kids P (n_rep n)) ++ [IFree h; IUnlock]) [EvErase h _]).
          * rewrite stack_set, decide_True by done. unfold unwind. simpl. rewrite <- ?app_assoc. done.
          * apply Forall_app. split; [apply okU_release; intros a; by apply kids_in|by repeat constructor].
          * done.
          * intros b. transitivity (shape (put h (unlinked n) s') b); [by apply heap_shape|].
            unfold shape. rewrite entry_put. simpl.
            destruct (decide (b = h)) as [->|Hne]; [by rewrite Hn|]. by apply Hsh.
          * right. by eauto.
          * simpl. by rewrite Hlg.
        + eapply (Pref _ (n_rep n) h [EvBuild h (p_key P (n_rep n))] []); try done.
          * left. unfold stack. simpl. by rewrite lookup_insert.
          * by intros a ?%elem_of_nil.
          * right. split_and!; try done.
            -- intros b Hne. rewrite <- Hsh by done. unfold shape, entry. simpl. by rewrite lookup_insert_ne.
            -- exists (with_rep n (p_build P p (n_rep n))). split.
               ++ unfold entry. simpl. rewrite lookup_insert. simpl. by rewrite Hl.
               ++ unfold built. by rewrite Hv0.
            -- by rewrite Hv0.
          * simpl. by rewrite Hlg.
      - assert (Hfin : ∀ s1, heap s1 = heap s' ∨ (∃ n n', entry s' h = Some n ∧ n_rep n' = n_rep n ∧
            n_stamp n' = n_stamp n ∧ n_linked n' = true ∧ heap s1 = <[h:=n']> (heap s')) →
            vars s1 = vars s' → log s1 = log s' →
            phase (set_stack t (finish x h kk (p_key P r) ++ []) s1)).
        { intros s1 Hh Hv1 Hl1. eapply (Pok _ r h bs (IUnlock :: map IRelease kk)); try done.
          - rewrite stack_set, decide_True by done. unfold finish. by rewrite app_nil_r.
          - constructor; [done|]. by apply okU_release.
          - intros a. rewrite elem_of_cons, elem_of_list_fmap. naive_solver.
          - eapply content_shape; [|done]. destruct Hh as [Hh|(n&n'&Hn&E1&E2&E3&Hh)].
            + by apply heap_shape.
            + intros b. transitivity (shape (put h n' s') b).
              * by apply heap_shape.
              * by apply (put_shape s' h n n').
          - simpl. congruence.
          - simpl. congruence. }
        destruct Hst as [Hst|Hst]; rewrite Hst in Hstep; simpl in Hstep.
        + destruct (trk cfg) eqn:Et; [|simplify_eq; apply Hfin; by eauto].
          destruct (entry s' h) as [n|] eqn:Hn; [|done]. pose proof Hn as [Hh Hlk]%entry_heap.
          case_decide; simplify_eq.
          * eapply (Pref _ r h bs kk); try done.
            -- right. by rewrite stack_set, decide_True.
            -- eapply content_shape; [|done]. intros b.
               transitivity (shape (put h (with_ref n (n_ref n + 1)) s') b); [by apply heap_shape|].
               by apply (put_shape s' h n).
          * apply Hfin; [|done|done]. right. exists n, (with_ref n (n_ref n + 1)). done.
        + destruct (entry s' h) as [n|] eqn:Hn; [|done]. pose proof Hn as [Hh Hlk]%entry_heap. simplify_eq.
          apply Hfin; [|done|done]. right. exists n, (with_del n (n_del n + 1)). done.
      - destruct l as [|i l]; simpl in Hst; rewrite Hst in Hstep.
        + simpl in Hstep. simplify_eq. eapply (Pdone _ r h bs); try done.
          * unfold stack. simpl. by rewrite lookup_insert.
          * simpl. by rewrite Hv, insert_insert.
          * simpl. by rewrite Hlg.
        + inversion Hl as [|?? Hi Hl']; subst.
          destruct (okU_step s' i (l ++ [IBind x h (p_key P r)]) c s'') as (E1&E2&E3&E4); try done.
          eapply (Pok _ r h bs l); try done; [|by eapply content_shape|congruence|congruence].
          intros a Ha. apply (Hnf a). by right.
      - by rewrite Hst in Hstep.
      - destruct l as [|i l]; simpl in Hst; rewrite Hst in Hstep.
        + simpl in Hstep. simplify_eq. eapply (Pthrown _ es); try done.
          * unfold stack. simpl. by rewrite lookup_insert.
          * simpl. rewrite Hv. by rewrite delete_insert.
          * simpl. by rewrite Hlg.
        + inversion Hl as [|?? Hi Hl']; subst.
          destruct (okU_step s' i (l ++ [IAbort x]) c s'') as (E1&E2&E3&E4); try done.
          eapply (Punw _ l es); try done; try congruence.
      - by rewrite Hst in Hstep.
    Qed.

    Lemma phase_run cs s' s'' : Inv s' → (∀ t', t' ≠ t → stack s' t' = stack s t') →
      phase s' → run s' (map (LRun t) cs) = Next s'' →
      phase s'' ∧ Inv s'' ∧ ∀ t', t' ≠ t → stack s'' t' = stack s t'.
    Proof.
      revert s'. induction cs as [|c cs IH]; intros s' HI Ho Hp; [intros [= ->]; by split_and!|].
      cbn [map Core.run].
      pose proof (step_ok P FS cfg eqv good Heq HP HF t0 s' (LRun t c) HI Hal) as Hok.
      destruct (step s' (LRun t c)) as [s1| |] eqn:E; [|by apply IH|done]. cbn [res_ok] in Hok.
      apply (IH s1); [done| |].
      - intros t' Hne. etransitivity; [by eapply other_stack|by apply Ho].
      - by apply (phase_step s' c).
    Qed.
  End new.

  Lemma lock_same s s' t : Inv s → Inv s' → lck cfg = true → stack s t = [] → stack s' t = [] →
    (∀ t', t' ≠ t → stack s' t' = stack s t') → lock s' = lock s.
  Proof.
    intros [_ _ HS] [_ _ HS'] El H1 H2 Ho.
    pose proof (i_lock _ _ _ _ HS El) as L. pose proof (i_lock _ _ _ _ HS' El) as L'.
    assert (Hu : ∀ t', lsum ulk (stack s' t') = lsum ulk (stack s t')).
    { intros t'. destruct (decide (t' = t)) as [->|]; [by rewrite H1, H2|by rewrite Ho]. }
    destruct (lock s) as [[t1 d1]|], (lock s') as [[t2 d2]|].
    - destruct L as (?&E1&L), L' as (?&E2&L'). rewrite Hu in E2.
      destruct (decide (t2 = t1)) as [->|Hne]; [congruence|]. specialize (L _ Hne). lia.
    - destruct L as (?&E1&_). specialize (L' t1). rewrite Hu in L'. lia.
    - destruct L' as (?&E1&_). specialize (L t2). rewrite Hu in E1. lia.
    - done.
  Qed.

  Lemma counters_same s s' t : Inv s → Inv s' → trk cfg = true → stack s t = [] → stack s' t = [] →
    (∀ t', t' ≠ t → stack s' t' = stack s t') → vars s' = vars s → (∀ b, shape s' b = shape s b) →
    ∀ b, entry s' b = entry s b.
  Proof.
    intros HI HI' Et H1 H2 Ho Hv Hsh b. pose proof HI as [_ HC _]. pose proof HI' as [_ HC' _].
    assert (Hts : ∀ f, tsum f s' = tsum f s).
    { intros f. pose proof (tsum_set FS f s t []) as E1. pose proof (tsum_set FS f s' t []) as E2.
      rewrite H1 in E1. rewrite H2 in E2. rewrite lsum_nil in *.
      assert (E : tsum f (set_stack t [] s') = tsum f (set_stack t [] s)); [|lia].
      unfold CoreInv.tsum. simpl.
      assert (Hm : ∀ m1 m2 : gmap nat (list instr), (∀ k, default [] (m1 !! k) = default [] (m2 !! k)) →
         msum (lsum f) m1 ≤ msum (lsum f) m2).
      { intros m1. induction m1 as [|k st m1 Hk IH] using map_ind; intros m2 Hm; [rewrite msum_empty; lia|].
        rewrite msum_new by done. pose proof (Hm k) as Hk'. rewrite lookup_insert in Hk'. simpl in Hk'.
        destruct (m2 !! k) as [st2|] eqn:E2k; simpl in Hk'; subst.
        - rewrite <- (msum_delete _ m2 k st2) by done.
          assert (msum (lsum f) m1 ≤ msum (lsum f) (delete k m2)); [|lia]. apply IH. intros k'.
          destruct (decide (k' = k)) as [->|Hne]; [by rewrite Hk, lookup_delete|].
          rewrite lookup_delete_ne by done. rewrite <- Hm. by rewrite lookup_insert_ne.
        - rewrite lsum_nil. simpl. apply IH. intros k'.
          destruct (decide (k' = k)) as [->|Hne]; [by rewrite Hk, E2k|]. rewrite <- Hm. by rewrite lookup_insert_ne. }
      assert (Hd : ∀ k, default [] (<[t:=[]]> (stacks s') !! k) = default [] (<[t:=[]]> (stacks s) !! k)).
      { intros k. destruct (decide (k = t)) as [->|Hne]; [by rewrite !lookup_insert|].
        rewrite !lookup_insert_ne by done. specialize (Ho k Hne). unfold stack in Ho. done. }
      apply Nat.le_antisymm; apply Hm; intros k; by rewrite Hd. }
    assert (Hhs : ∀ a, hsum P FS a s' = hsum P FS a s).
    { assert (Hm : ∀ a s1 s2, (∀ b, shape s1 b = shape s2 b) → hsum P FS a s1 ≤ hsum P FS a s2).
      { intros a s1 s2. unfold shape, entry, hsum. generalize (heap s1), (heap s2). clear.
        intros m1. induction m1 as [|k n m1 Hk IH] using map_ind; intros m2 Hm; [rewrite msum_empty; lia|].
        rewrite msum_new by done. pose proof (Hm k) as Hk'. rewrite lookup_insert in Hk'. simpl in Hk'.
        assert (Hrest : msum (ncount P a) m1 ≤ msum (ncount P a) (delete k m2)).
        { apply IH. intros b. destruct (decide (b = k)) as [->|Hne]; [by rewrite Hk, lookup_delete|].
          specialize (Hm b). rewrite lookup_insert_ne in Hm by done. by rewrite lookup_delete_ne. }
        destruct (m2 !! k) as [n2|] eqn:E2.
        - rewrite <- (msum_delete _ m2 k n2) by done.
          assert (ncount P a n = ncount P a n2); [|lia]. unfold ncount.
          destruct (n_linked n), (n_linked n2); simplify_eq/=; congruence.
        - rewrite delete_notin in Hrest by done. unfold ncount at 1. destruct (n_linked n); simplify_eq/=. lia. }
      intros a. apply Nat.le_antisymm; apply Hm; intros; by rewrite Hsh. }
    assert (Hc : ∀ a, cnt s' a = cnt s a).
    { intros a. unfold CoreInv.cnt, CoreInv.vsum. by rewrite Hv, Hhs, Hts. }
    specialize (Hsh b). unfold shape in Hsh.
    destruct (entry s' b) as [n'|] eqn:E', (entry s b) as [n|] eqn:E; simplify_eq/=; [|done].
    pose proof (i_ref _ _ _ _ _ HC Et _ _ E) as R1. pose proof (i_ref _ _ _ _ _ HC' Et _ _ E') as R2.
    pose proof (i_del _ _ _ _ _ HC Et _ _ E) as D1. pose proof (i_del _ _ _ _ _ HC' Et _ _ E') as D2.
    rewrite Hc in R2, D2. rewrite !Hts in D2.
    apply entry_heap in E as [_ L]. apply entry_heap in E' as [_ L'].
    destruct n, n'; simpl in *. simplify_eq. f_equal. f_equal; lia.
  Qed.

  (** outcome of an uninterrupted construction *)
  Lemma new_outcome s t x p ys s1 cs s2 : reachable s → allowed t →
    step s (LStart t (ONew x p ys)) = Next s1 →
    run s1 (map (LRun t) cs) = Next s2 → stack s2 t = [] →
    (∀ t', t' ≠ t → stack s2 t' = stack s t') ∧
    (lck cfg = true → lock s2 = lock s) ∧
    ∃ ks, Forall2 (λ y h, vars s !! y = Some (Some h)) ys ks ∧
    ((vars s2 = vars s ∧ (∀ b, shape s2 b = shape s b) ∧ (trk cfg = true → ∀ b, entry s2 b = entry s b) ∧
       ∃ es, log s2 = EvThrow x :: es ++ log s ∧ (es = [] ∨ ∃ h k, es = [EvErase h k])) ∨
     (∃ r h bs, p_make P p ks = Some r ∧ vars s2 = <[x:=Some h]> (vars s) ∧
       log s2 = EvNew x (p_key P r) :: bs ++ log s ∧ content s s2 p r h bs)).
  Proof.
    intros Hre Hal Hs1 Hrun Hst2. pose proof (reach_inv P FS cfg eqv good Heq HP HF t0 s Hre) as HI.
    pose proof (step_ok P FS cfg eqv good Heq HP HF t0 s _ HI (Hal : allowed (label_tid (LStart t (ONew x p ys))))) as Hok.
    rewrite Hs1 in Hok. simpl in Hok.
    pose proof (eff_step P FS cfg eqv good Heq HP HF t0 s (LStart t (ONew x p ys)) s1 HI Hal Hs1) as Heff.
    simpl in Hs1. destruct (stack s t) eqn:Hst; [|done]. simpl in Hs1.
    destruct (vars s !! x) eqn:Hx; [done|]. destruct (mapM (live s) ys) as [ks|] eqn:Hm; [|done].
    apply mapM_Some in Hm.
    assert (Hks : Forall2 (λ y h, vars s !! y = Some (Some h)) ys ks).
    { eapply Forall2_impl; [done|]. intros y h Hy. by apply live_vars. }
    assert (Hks' : ∀ a, a ∈ ks → ∃ y, vars s !! y = Some (Some a)).
    { intros a Ha. apply elem_of_list_lookup in Ha as [j Hj].
      destruct (Forall2_lookup_r _ _ _ _ _ Hks Hj) as (y&_&Hy). eauto. }
    destruct (copy_handles_spec P FS cfg s ks) as (s1'&Hs1'&Hcp).
    { intros a [y Hy]%Hks'. destruct (var_entry P FS cfg eqv good HF t0 _ _ _ HI Hy) as (n&Hn&_). eauto. }
    rewrite Hs1' in Hs1. pose proof Hcp as [C1 C2 C3 C4 C5 C6 C7 C8].
    assert (Hsh0 : ∀ b, shape s1' b = shape s b).
    { apply shape_same. by eapply copied_shape. }
    assert (Hph : phase s t x p ks s1 ∧ ∀ t', t' ≠ t → stack s1 t' = stack s t').
    { destruct (p_make P p ks) as [r|] eqn:Hr; simplify_eq.
      - split.
        + eapply (Pfind _ _ _ _ _ _ r); try done.
          * left. by rewrite stack_set, decide_True.
          * simpl. by rewrite C4.
        + intros t' Hne. rewrite stack_set, decide_False by done. unfold stack. simpl. by rewrite C6.
      - split.
        + eapply (Punw _ _ _ _ _ _ (map IRelease ks) []); try done.
          * by rewrite stack_set, decide_True.
          * by apply okU_release.
          * simpl. by rewrite C4.
          * by left.
        + intros t' Hne. rewrite stack_set, decide_False by done. unfold stack. simpl. by rewrite C6. }
    destruct Hph as [Hph Ho].
    destruct (phase_run s t x p ks HI Hal Hst Hx Hks' cs s1 s2 Hok Ho Hph Hrun) as (Hph2&HI2&Ho2).
    split; [done|]. split; [intros El; by eapply lock_same|]. exists ks. split; [done|].
    destruct Hph2 as [r Hr Hst' Hv Hsh Hlg|r h n Hr Hst' Hn Hd Hk Hv Hsh Hlg
        |r h n Hr Hst' Hn Hm' Hsh Hn' Hnr Hv Hlg
        |r h bs kk Hr Hst' Hkk Hco Hv Hlg|r h bs l Hr Hst' Hl Hnf Hco Hv Hlg|r h bs Hr Hst' Hco Hv Hlg
        |l es Hst' Hl Hv Hsh Hes Hlg|es Hst' Hv Hsh Hes Hlg].
    - destruct Hst'; congruence.
    - congruence.
    - congruence.
    - destruct Hst'; congruence.
    - rewrite Hst' in Hst2. by destruct l.
    - right. by exists r, h, bs.
    - rewrite Hst' in Hst2. by destruct l.
    - left. split_and!; try done; [|by eauto]. intros Et. by eapply counters_same.
  Qed.

  (** without throwing choices no construction is aborted *)
  Definition no_throw (s s' : state) : Prop := ∃ new, log s' = new ++ log s ∧ ∀ x, EvThrow x ∉ new.

  Lemma no_abort_step s t c s' : c_throw c = false → (∀ x, IAbort x ∉ stack s t) →
    step s (LRun t c) = Next s' → (∀ x, IAbort x ∉ stack s' t) ∧ no_throw s s'.
  Proof.
    intros Hc Hna. cbn [Core.step]. destruct (stack s t) as [|i rest] eqn:Hst; [done|]. intros He.
    assert (Hi : ∀ x, i ≠ IAbort x) by (intros x ->; apply (Hna x); by left).
    assert (Hrest : ∀ x, IAbort x ∉ rest) by (intros x Hx; apply (Hna x); by right).
    assert (Hrel : ∀ x kk, IAbort x ∉ map (IRelease (K:=K) (A:=A) (R:=R)) kk).
    { intros x kk (a&?&_)%elem_of_list_fmap. done. }
    assert (Hs : ∀ s1 new, stack (set_stack t new s1) t = new) by (intros; by rewrite stack_set, decide_True).
    assert (Hl : ∀ s1 new e, stack (add_log e (set_stack t new s1)) t = new).
    { intros. unfold stack. simpl. by rewrite lookup_insert. }
    assert (H0 : ∀ s1, log s1 = log s → no_throw s s1).
    { intros s1 E. exists []. split; [done|]. by intros x ?%elem_of_nil. }
    assert (H1 : ∀ s1 e, (∀ x, e ≠ EvThrow x) → log s1 = e :: log s → no_throw s s1).
    { intros s1 e Hn E. exists [e]. split; [done|]. intros x ->%elem_of_list_singleton%eq_sym. by eapply Hn. }
    destruct i; simpl in He; rewrite ?Hc in He; unfold acquire, unlock, erase, finish in He;
      repeat case_match; simplify_eq;
      (split; [intros x'; rewrite ?Hs, ?Hl; repeat (rewrite ?elem_of_cons, ?elem_of_app); specialize (Hrest x');
               try (match goal with |- context [map _ ?kk] => specialize (Hrel x' kk) end);
               rewrite ?elem_of_nil; naive_solver
              |first [by apply H0 | by eapply H1 | naive_solver]]).
  Qed.

  Lemma no_abort_run s t cs s' : Forall (λ c, c_throw c = false) cs → (∀ x, IAbort x ∉ stack s t) →
    run s (map (LRun t) cs) = Next s' → no_throw s s'.
  Proof.
    intros Hcs. revert s. induction Hcs as [|c cs Hc _ IH]; intros s Hna.
    { intros [= ->]. exists []. split; [done|]. by intros x ?%elem_of_nil. }
    cbn [map Core.run]. destruct (step s (LRun t c)) as [s1| |] eqn:E; [|by apply IH|done].
    destruct (no_abort_step _ _ _ _ Hc Hna E) as (Hna1&new&Hl&Hn). intros Hrun.
    destruct (IH s1 Hna1 Hrun) as (new2&Hl2&Hn2). exists (new2 ++ new). split.
    - by rewrite Hl2, Hl, app_assoc.
    - intros x [?|?]%elem_of_app; [by eapply Hn2|by eapply Hn].
  Qed.

  (** a construction whose argument conversion succeeds can always be
      completed, and completes successfully whenever nothing throws *)
  Lemma new_succeeds s t x p ys ks r : reachable s → allowed t → stack s t = [] →
    (lck cfg = true → lock s = None) → vars s !! x = None →
    Forall2 (λ y h, vars s !! y = Some (Some h)) ys ks → p_make P p ks = Some r →
    ∃ s1 cs s2, step s (LStart t (ONew x p ys)) = Next s1 ∧ Forall (λ c, c_throw c = false) cs ∧
      run s1 (map (LRun t) cs) = Next s2 ∧ stack s2 t = [] ∧
      ∃ h bs, vars s2 = <[x:=Some h]> (vars s) ∧ content s s2 p r h bs.
  Proof.
    intros Hre Hal Hst Hlk Hx Hys Hr. pose proof (reach_inv P FS cfg eqv good Heq HP HF t0 s Hre) as HI.
    pose proof (step_ok P FS cfg eqv good Heq HP HF t0 s _ HI (Hal : allowed (label_tid (LStart t (ONew x p ys))))) as Hok.
    assert (Hm : mapM (live s) ys = Some ks).
    { apply mapM_Some. eapply Forall2_impl; [done|]. intros y h Hy. unfold live. by rewrite Hy. }
    destruct (copy_handles_spec P FS cfg s ks) as (s1'&Hs1'&Hcp).
    { intros a Ha. apply elem_of_list_lookup in Ha as [j Hj].
      destruct (Forall2_lookup_r _ _ _ _ _ Hys Hj) as (y&_&Hy).
      destruct (var_entry P FS cfg eqv good HF t0 _ _ _ HI Hy) as (n&Hn&_). eauto. }
    destruct (step s (LStart t (ONew x p ys))) as [s1| |] eqn:Hs1.
    2,3: exfalso; simpl in Hs1; rewrite Hst in Hs1; simpl in Hs1; rewrite Hx, Hm, Hs1', Hr in Hs1; done.
    cbn [res_ok] in Hok.
    assert (E : stack s1 t = [ILockFind x p r] ∧ lock s1 = lock s ∧ log s1 = log s).
    { simpl in Hs1. rewrite Hst in Hs1. simpl in Hs1. rewrite Hx, Hm, Hs1', Hr in Hs1. simplify_eq.
      pose proof Hcp as [C1 C2 C3 C4 C5 C6 C7 C8]. rewrite stack_set, decide_True by done.
      split_and!; try done; simpl; congruence. }
    destruct E as (E1&E2&E3).
    destruct (finish_alone P FS cfg eqv good Heq HP HF t0 s1 t) as (cs&s2&Hcs&Hrun&Hst2&_); [done|done| |].
    { intros El. by rewrite E2, Hlk. }
    exists s1, cs, s2. split_and!; try done.
    destruct (new_outcome s t x p ys s1 cs s2) as (_&_&ks'&Hks'&Hout); [done..|].
    assert (ks' = ks) as ->.
    { clear -Hys Hks'. revert ks' Hks'. induction Hys; intros ks' Hk; inversion Hk; simplify_eq; [done|].
      f_equal. by apply IHHys. }
    destruct Hout as [(_&_&_&es&Hlg&_)|(r'&h&bs&Hr'&Hv&_&Hco)].
    - exfalso. destruct (no_abort_run s1 t cs s2 Hcs) as (new&Hn&Hnt); [|done|].
      { rewrite E1. intros y. by rewrite elem_of_list_singleton. }
      rewrite E3, Hlg in Hn. rewrite app_comm_cons in Hn. apply app_inv_tail in Hn.
      apply (Hnt x). rewrite <- Hn. by left.
    - assert (r' = r) as -> by congruence. eauto.
  Qed.
End Solo.
