(** Effect of one step of the machine of [Core.v] on entries, variables and
    log (derived facts, used by the property proofs). *)
From Verif Require Export CoreRun.

Section Eff.
  Context {K A R V : Type}.
  Context (P : policy K A R V) (FS : factory K) (cfg : config).
  Context (eqv : K → K → bool) (good : R → Prop).
  Context (Heq : equivalence eqv) (HP : policy_ok eqv good P) (HF : factory_spec eqv FS).
  Context (t0 : tid).

  Notation state := (state (R:=R) (K:=K) (A:=A) FS).
  Notation instr := (instr (K:=K) (A:=A) (R:=R)).
  Notation node := (node (R:=R)).
  Notation label := (label (A:=A)).
  Notation event := (event (K:=K) (R:=R)).
  Notation tsum := (tsum FS).
  Notation cnt := (cnt P FS).
  Notation Inv := (Inv P FS cfg eqv good HF t0).
  Notation same_shape := (same_shape FS).
  Notation allowed := (allowed cfg t0).
  Notation done_node n := (is_Some (p_val P (n_rep n))).
  Implicit Types (s : state) (n m : node) (a b h : addr) (t : tid) (i : instr) (l : label).

  (** effect on variables, with the event logged *)
  Inductive veff (s : state) (l : label) : gmap var (option addr) → option event → Prop :=
  | V_none : veff s l (vars s) None
  | V_make t x p ys : l = LStart t (ONew x p ys) → vars s !! x = None →
      veff s l (<[x:=None]> (vars s)) None
  | V_bind t c x h k rest n : l = LRun t c → stack s t = IBind x h k :: rest →
      vars s !! x = Some None → entry s h = Some n → eqv (p_key P (n_rep n)) k = true →
      veff s l (<[x:=Some h]> (vars s)) (Some (EvNew x k))
  | V_abort t c x rest : l = LRun t c → stack s t = IAbort x :: rest →
      vars s !! x = Some None →
      veff s l (delete x (vars s)) (Some (EvThrow x))
  | V_copy t x y h : l = LStart t (OCopy x y) → vars s !! x = None → vars s !! y = Some (Some h) →
      veff s l (<[x:=Some h]> (vars s)) (Some (EvCopy x y))
  | V_assign t x y hx hy : l = LStart t (OAssign x y) →
      vars s !! x = Some (Some hx) → vars s !! y = Some (Some hy) →
      veff s l (<[x:=Some hy]> (vars s)) (Some (EvAssign x y))
  | V_swap t x y hx hy : l = LStart t (OSwap x y) →
      vars s !! x = Some (Some hx) → vars s !! y = Some (Some hy) →
      veff s l (<[y:=Some hx]> (<[x:=Some hy]> (vars s))) (Some (EvSwap x y))
  | V_destroy t x h : l = LStart t (ODestroy x) → vars s !! x = Some (Some h) →
      veff s l (delete x (vars s)) (Some (EvDestroy x))
  | V_get t x h n : l = LStart t (OGet x) → vars s !! x = Some (Some h) →
      entry s h = Some n → done_node n →
      veff s l (vars s) (Some (EvGet x h (n_rep n)))
  | V_inner t x y path h0 h n : l = LStart t (OInner x y path) → vars s !! x = None → vars s !! y = Some (Some h0) →
      inner P FS s h0 path = Some (Some h) → entry s h = Some n → done_node n →
      veff s l (<[x:=Some h]> (vars s)) (Some (EvNew x (p_key P (n_rep n)))).

  Inductive eff (s : state) (l : label) (s' : state) : Prop :=
  | E_vars oe : same_shape s s' → clock s' = clock s →
      veff s l (vars s') oe → log s' = option_list oe ++ log s → eff s l s'
  | E_alloc t c x p r rest a : l = LRun t c → stack s t = IFind x p r :: rest →
      heap s !! a = None →
      (∀ b n, entry s b = Some n → eqv (p_key P (n_rep n)) (p_key P r) = false) →
      (∀ b, entry s' b = if decide (b = a) then Some (Node r 0 0 true (clock s)) else entry s b) →
      vars s' = vars s → log s' = log s → eff s l s'
  | E_build t c x h p ks k rest n : l = LRun t c → stack s t = IVisit x h p ks k :: rest →
      entry s h = Some n → p_val P (n_rep n) = None →
      is_Some (p_val P (p_build P p (n_rep n))) →
      eqv (p_key P (p_build P p (n_rep n))) (p_key P (n_rep n)) = true →
      eqv (p_key P (n_rep n)) k = true →
      (∀ b, entry s' b = if decide (b = h) then Some (with_rep n (p_build P p (n_rep n))) else entry s b) →
      vars s' = vars s → log s' = EvBuild h k :: log s → eff s l s'
  | E_erase t c i rest h n : l = LRun t c → stack s t = i :: rest →
      (i = ICheck h ∧ done_node n ∧ trk cfg = true ∨ ∃ x p ks k, i = IVisit x h p ks k ∧ p_val P (n_rep n) = None) →
      entry s h = Some n → cnt s h = 0 →
      (∀ b, entry s' b = if decide (b = h) then None else entry s b) →
      vars s' = vars s → log s' = EvErase h (p_key P (n_rep n)) :: log s → eff s l s'.

  Lemma copied_shape s s0 s' hs : copied P FS cfg s s0 hs → heap s' = heap s0 → same_shape s s'.
  Proof.
    intros [C1 _ _ _ _ _ _ _] Eh.
    assert (He : ∀ a, entry s' a = bumped cfg (occ a hs) <$> entry s a).
    { intros a. unfold entry. rewrite Eh, C1. destruct (heap s !! a) as [n|]; simpl; [|done].
      destruct (bumped_facts cfg (occ a hs) n) as (_&->&_). by destruct (n_linked n). }
    split; intros a n; rewrite He.
    - intros ->. simpl. eexists; split; [done|]. pose proof (bumped_facts cfg (occ a hs) n). naive_solver.
    - destruct (entry s a) as [m|]; [|done]. simpl. intros ?; simplify_eq. exists m.
      pose proof (bumped_facts cfg (occ a hs) m). naive_solver.
  Qed.

  Lemma eff_start s t o s' : Inv s → allowed t → stack s t = [] →
    start P FS cfg s t o = Next s' → eff s (LStart t o) s'.
  Proof.
    intros HI Hal Ht. destruct o as [x p ys|x y|x y|x y|x|x|x y path]; simpl.
    - destruct (vars s !! x) eqn:Hx; [done|]. destruct (mapM (live s) ys) as [ks|] eqn:Hks; [|done].
      apply mapM_Some in Hks.
      destruct (copy_handles_spec P FS cfg s ks) as (s1&Hs1&Hcp).
      { intros a Ha. apply elem_of_list_lookup in Ha as [j Hj].
        destruct (Forall2_lookup_r _ _ _ _ _ Hks Hj) as (y&_&Hy).
        destruct (live_entry _ _ _ _ _ _ _ _ _ _ HI Hy) as (n&Hn&_). eauto. }
      rewrite Hs1. pose proof Hcp as [C1 C2 C3 C4 C5 C6 C7 C8].
      destruct (p_make P p ks) as [r|] eqn:Hr; simpl; intros [= <-].
      all: eapply (E_vars _ _ _ None); simpl; [by eapply copied_shape|done| |done].
      all: rewrite C4; by eapply V_make.
    - destruct (vars s !! x) eqn:Hx; [done|]. destruct (live s y) as [h|] eqn:Hy; [|done].
      destruct (copy_handles_spec P FS cfg s [h]) as (s1&Hs1&Hcp).
      { intros a ->%elem_of_list_singleton. destruct (live_entry _ _ _ _ _ _ _ _ _ _ HI Hy) as (n&Hn&_). eauto. }
      simpl in Hs1. destruct (copy_handle FS cfg s h) as [s1'|]; simplify_eq. intros [= <-].
      pose proof Hcp as [C1 C2 C3 C4 C5 C6 C7 C8].
      eapply (E_vars _ _ _ (Some _)); simpl; [by eapply copied_shape|done| |by rewrite C8].
      rewrite C4. eapply V_copy; try done. by apply live_vars.
    - destruct (live s x) as [hx|] eqn:Hx; [|done]. destruct (live s y) as [hy|] eqn:Hy; [|done].
      destruct (copy_handles_spec P FS cfg s [hy]) as (s1&Hs1&Hcp).
      { intros a ->%elem_of_list_singleton. destruct (live_entry _ _ _ _ _ _ _ _ _ _ HI Hy) as (n&Hn&_). eauto. }
      simpl in Hs1. destruct (copy_handle FS cfg s hy) as [s1'|]; simplify_eq. intros [= <-].
      pose proof Hcp as [C1 C2 C3 C4 C5 C6 C7 C8].
      eapply (E_vars _ _ _ (Some _)); simpl; [by eapply copied_shape|done| |by rewrite C8].
      rewrite C4. eapply V_assign; try done; by apply live_vars.
    - destruct (live s x) as [hx|] eqn:Hx; [|done]. destruct (live s y) as [hy|] eqn:Hy; [|done].
      intros [= <-]. eapply (E_vars _ _ _ (Some _)); simpl; [by apply same_shape_heap|done| |done].
      eapply V_swap; try done; by apply live_vars.
    - destruct (live s x) as [h|] eqn:Hx; [|done]. intros [= <-].
      eapply (E_vars _ _ _ (Some _)); simpl; [by apply same_shape_heap|done| |done].
      eapply V_destroy; try done. by apply live_vars.
    - destruct (live s x) as [h|] eqn:Hx; [|done].
      destruct (live_entry _ _ _ _ _ _ _ _ _ _ HI Hx) as (n&Hn&v&Hv). rewrite Hn, Hv. intros [= <-].
      eapply (E_vars _ _ _ (Some _)); simpl; [by apply same_shape_heap|done| |done].
      eapply V_get; try done. by apply live_vars.
    - destruct (vars s !! x) eqn:Hx; [done|]. destruct (live s y) as [h0|] eqn:Hy; [|done].
      destruct (inner_live P FS cfg eqv good HF t0 s y h0 path HI Hy) as [->|(h&n&Hin&Hc&Hn&Hd)]; [done|]. rewrite Hin, Hn.
      destruct (copy_handles_spec P FS cfg s [h]) as (s1&Hs1&Hcp).
      { intros a ->%elem_of_list_singleton. eauto. }
      simpl in Hs1. destruct (copy_handle FS cfg s h) as [s1'|]; simplify_eq. intros [= <-].
      pose proof Hcp as [C1 C2 C3 C4 C5 C6 C7 C8].
      eapply (E_vars _ _ _ (Some _)); simpl; [by eapply copied_shape|done| |by rewrite C8].
      rewrite C4. eapply V_inner; try done. by apply live_vars.
  Qed.

  Lemma quiet_eff s l s' : same_shape s s' → clock s' = clock s →
    vars s' = vars s → log s' = log s → eff s l s'.
  Proof.
    intros H1 H2 H3 H4. apply (E_vars _ _ _ None); try done. rewrite H3. constructor.
  Qed.

  Lemma eff_exec s t i rest c s' : Inv s → allowed t → stack s t = i :: rest →
    exec P FS cfg s t i rest c = Next s' → eff s (LRun t c) s'.
  Proof.
    intros HI Hal Hst He. pose proof HI as [HH HC HS].
    pose proof (i_head _ _ _ _ _ HC _ _ _ Hst) as Hhd.
    destruct i as [x p r|x p r|x h p ks k|x h ks k|x h ks k| |h|h|h|h|x h k|x]; simpl in He, Hhd.
    - unfold acquire in He. repeat case_match; simplify_eq;
        (apply quiet_eff; try done; by apply same_shape_heap).
    - destruct (c_throw c).
      { simplify_eq. apply quiet_eff; try done. by apply same_shape_heap. }
      destruct (f_find FS (cont s) (kview P s) (p_key P r)) as [h| |] eqn:Hf; simplify_eq.
      + apply quiet_eff; try done. by apply same_shape_heap.
      + destruct (heap s !! c_addr c) eqn:Ha; simplify_eq.
        eapply (E_alloc _ _ _ t c x p r rest (c_addr c)); try done.
        * intros b n Hn. eapply (fi_notfound _ _ HF); [apply HH|done| |].
          -- apply elem_of_linked. eauto.
          -- by apply kview_entry.
        * intros b. change (entry (put (c_addr c) (Node r 0 0 true (clock s)) s) b =
            if decide (b = c_addr c) then Some (Node r 0 0 true (clock s)) else entry s b).
          by rewrite entry_put.
    - destruct Hhd as (n&Hn&Hnk&Hmk). rewrite Hn in He.
      destruct (p_val P (n_rep n)) as [v|] eqn:Hv.
      { simplify_eq. apply quiet_eff; try done. by apply same_shape_heap. }
      destruct (c_throw c); simplify_eq.
      + destruct (i_undone _ _ _ _ _ HC _ _ Hn Hv) as (Hc0&_&_).
        eapply (E_erase _ _ _ t c _ rest h n); try done.
        * right. by eauto 10.
        * intros b. simpl. change (entry (put h (unlinked n) s) b =
            if decide (b = h) then None else entry s b). by rewrite entry_put.
      + destruct Hmk as [ks0 Hmk]; [done|].
        destruct (po_build _ _ _ HP _ _ _ Hmk Hv) as (Hbv&Hbg&Hbk&Hbo).
        eapply (E_build _ _ _ t c x h p ks k rest n); try done.
        intros b. set (r' := p_build P p (n_rep n)). change (entry (put h (with_rep n r') s) b =
            if decide (b = h) then Some (with_rep n r') else entry s b). rewrite entry_put. simpl.
        apply entry_heap in Hn as [_ Hl]. by rewrite Hl.
    - destruct (trk cfg); [|simplify_eq; apply quiet_eff; try done; by apply same_shape_heap].
      destruct (entry s h) as [n|] eqn:Hn; [|done].
      assert (Hl : n_linked n = true) by (by apply entry_heap in Hn as [_ ?]).
      case_decide; simplify_eq; apply quiet_eff; try done.
      all: eapply (same_shape_trans _ _ (put h (with_ref n (n_ref n + 1)) s));
          [by eapply same_shape_put|by apply same_shape_heap].
    - destruct (entry s h) as [n|] eqn:Hn; [|done]. simplify_eq.
      assert (Hl : n_linked n = true) by (by apply entry_heap in Hn as [_ ?]).
      apply quiet_eff; try done.
      eapply (same_shape_trans _ _ (put h (with_del n (n_del n + 1)) s));
          [by eapply same_shape_put|by apply same_shape_heap].
    - unfold unlock in He. repeat case_match; simplify_eq;
        (apply quiet_eff; try done; by apply same_shape_heap).
    - destruct (trk cfg); [|simplify_eq; apply quiet_eff; try done; by apply same_shape_heap].
      destruct (entry s h) as [n|] eqn:Hn; [|done].
      assert (Hl : n_linked n = true) by (by apply entry_heap in Hn as [_ ?]).
      case_decide; simplify_eq; apply quiet_eff; try done.
      all: eapply (same_shape_trans _ _ (put h (with_ref n (n_ref n - 1)) s));
          [by eapply same_shape_put|by apply same_shape_heap].
    - unfold acquire in He. repeat case_match; simplify_eq;
        (apply quiet_eff; try done; by apply same_shape_heap).
    - destruct (entry s h) as [n|] eqn:Hn; [|done].
      assert (Hl : n_linked n = true) by (by apply entry_heap in Hn as [_ ?]).
      destruct (decide ((n_del n - 1)%Z = 0%Z)) as [Hz|Hz]; simplify_eq.
      + assert (Et : trk cfg = true).
        { eapply (i_trk _ _ _ _ _ HC t (ICheck h)). rewrite Hst. by left. }
        assert (Hp1 : 0 < tsum (pend h) s).
        { pose proof (tsum_elem _ (pend h) s t (ICheck h)) as Hge. rewrite Hst in Hge.
          simpl in Hge. rewrite at_eq in Hge. apply Hge. by left. }
        destruct (i_pend _ _ _ _ _ HC h Hp1) as (n'&Hn'&Hd). rewrite Hn in Hn'. simplify_eq.
        assert (Hdel := i_del _ _ _ _ _ HC Et _ _ Hn).
        rewrite (addel_only P FS cfg eqv good Heq HP t0 s t _ rest h HS Hst) in Hdel by done. simpl in Hdel.
        assert (Hc0 : cnt s h = 0).
        { destruct (Nat.eq_dec (cnt s h) 0) as [|Hnz]; [done|].
          rewrite bool_decide_true in Hdel by lia. simpl in Hdel. lia. }
        eapply (E_erase _ _ _ t c _ rest h n'); try done.
        * left. done.
        * intros b. simpl. change (entry (put h (unlinked (with_del n' (n_del n' - 1))) s) b =
            if decide (b = h) then None else entry s b). by rewrite entry_put.
      + apply quiet_eff; try done.
        eapply (same_shape_trans _ _ (put h (with_del n (n_del n - 1)) s));
          [by eapply same_shape_put|by apply same_shape_heap].
    - destruct (heap s !! h) as [n|] eqn:Hh; [|done]. destruct (n_linked n) eqn:Hl; simplify_eq.
      apply quiet_eff; try done.
      assert (E : ∀ a, entry (set_stack t rest (set_heap (delete h (heap s)) s)) a = entry s a).
      { intros a. unfold entry. simpl. destruct (decide (a = h)) as [->|Hne].
        - by rewrite lookup_delete, Hh, Hl.
        - by rewrite lookup_delete_ne. }
      split; intros a m; rewrite E; eauto.
    - simplify_eq. destruct (i_bind _ _ _ _ _ HC t (IBind x h k)) as (n&Hn&Hk); [rewrite Hst; by left|].
      eapply (E_vars _ _ _ (Some _)); simpl; [by apply same_shape_heap|done| |done].
      eapply V_bind; try done.
      apply (making_one P FS cfg eqv good Heq HP HF t0 s t [] HI Hal x (IBind x h k)); [rewrite Hst; by left|].
      simpl. apply at_eq.
    - simplify_eq.
      eapply (E_vars _ _ _ (Some _)); simpl; [by apply same_shape_heap|done| |done].
      eapply V_abort; try done.
      apply (making_one P FS cfg eqv good Heq HP HF t0 s t [] HI Hal x (IAbort x)); [rewrite Hst; by left|].
      simpl. apply at_eq.
  Qed.

  Lemma eff_step s l s' : Inv s → allowed (label_tid l) → step P FS cfg s l = Next s' → eff s l s'.
  Proof.
    intros HI Hal. destruct l as [t o|t c]; simpl in *.
    - destruct (stack s t) eqn:E; [by apply eff_start|done].
    - destruct (stack s t) as [|i rest] eqn:E; [done|]. by eapply eff_exec.
  Qed.
End Eff.
