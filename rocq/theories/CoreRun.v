(** API calls preserve the invariant; the invariant holds along every
    schedule from the initial state. *)
From Verif Require Export CoreStep.

Section Run.
  Context {K A R V : Type}.
  Context (P : policy K A R V) (FS : factory K) (cfg : config).
  Context (eqv : K → K → bool) (good : R → Prop).
  Context (Heq : equivalence eqv) (HP : policy_ok eqv good P) (HF : factory_spec eqv FS).
  Context (t0 : tid).

  Notation state := (state (R:=R) (K:=K) (A:=A) FS).
  Notation instr := (instr (K:=K) (A:=A) (R:=R)).
  Notation node := (node (R:=R)).
  Notation own := (own P).
  Notation tsum := (tsum FS).
  Notation vsum := (vsum FS).
  Notation hsum := (hsum P FS).
  Notation cnt := (cnt P FS).
  Notation ncount := (ncount P).
  Notation InvS := (InvS FS cfg t0).
  Notation Inv := (Inv P FS cfg eqv good HF t0).
  Notation new_ok := (new_ok P FS cfg eqv).
  Notation same_shape := (same_shape FS).
  Notation res_ok := (res_ok P FS cfg eqv good HF t0).
  Notation allowed := (allowed cfg t0).
  Notation done_node n := (is_Some (p_val P (n_rep n))).
  Implicit Types (s : state) (n m : node) (a b h : addr) (t : tid) (i : instr).

  Definition bumped (o : nat) (n : node) : node :=
    if trk cfg && n_linked n then with_ref n (n_ref n + Z.of_nat o) else n.

  Lemma bumped_facts o n : n_rep (bumped o n) = n_rep n ∧ n_linked (bumped o n) = n_linked n ∧
    n_stamp (bumped o n) = n_stamp n ∧ n_del (bumped o n) = n_del n.
  Proof. unfold bumped. destruct (_ && _); done. Qed.

  Record copied (s s' : state) (hs : list addr) : Prop := {
    cp_heap : ∀ a, heap s' !! a = bumped (occ a hs) <$> heap s !! a;
    cp_hsum : ∀ a, hsum a s' = hsum a s;
    cp_cont : cont s' = cont s; cp_vars : vars s' = vars s; cp_lock : lock s' = lock s;
    cp_stacks : stacks s' = stacks s; cp_clock : clock s' = clock s; cp_log : log s' = log s;
  }.

  Lemma bumped_0 n : bumped 0 n = n.
  Proof. unfold bumped. destruct (_ && _); [|done]. destruct n; unfold with_ref; simpl. f_equal. lia. Qed.
  Lemma bumped_add o1 o2 n : bumped o1 (bumped o2 n) = bumped (o2 + o1) n.
  Proof.
    unfold bumped. destruct n as [r z d l st]; simpl. destruct (trk cfg), l; simpl; try done.
    unfold with_ref; simpl. f_equal. lia.
  Qed.

  Lemma copied_refl s : copied s s [].
  Proof.
    split; try done. intros a. rewrite occ_nil. destruct (heap s !! a); simpl; [|done].
    by rewrite bumped_0.
  Qed.

  Lemma copy_handles_spec s hs : (∀ h, h ∈ hs → is_Some (entry s h)) →
    ∃ s', copy_handles FS cfg s hs = Some s' ∧ copied s s' hs.
  Proof.
    revert s. induction hs as [|h hs IH]; intros s Hl; simpl; [exists s; split; [done|apply copied_refl]|].
    destruct (Hl h) as [n Hn]; [by left|]. unfold copy_handle. destruct (trk cfg) eqn:Et.
    - rewrite Hn. set (n' := with_ref n (n_ref n + 1)). apply entry_heap in Hn as [Hn Hlk].
      destruct (IH (put h n' s)) as (s'&Hs'&[C1 C2 C3 C4 C5 C6 C7 C8]).
      { intros b Hb. rewrite entry_put. unfold n'. simpl. rewrite Hlk. case_decide; [by eauto|].
        apply Hl. by right. }
      exists s'. split; [done|]. split; try done.
      + intros a. rewrite C1. simpl. rewrite occ_cons. destruct (decide (a = h)) as [->|Hne].
        * rewrite lookup_insert, Hn. cbn [fmap option_fmap option_map].
          assert (n' = bumped 1 n) as -> by (unfold bumped; by rewrite Et, Hlk).
          by rewrite bumped_add.
        * by rewrite lookup_insert_ne by done.
      + intros a. rewrite C2. pose proof (hsum_put P FS s (put h n' s) h n n' a Hn eq_refl) as E.
        rewrite !ncount_linked in E by done. simpl in E. lia.
    - destruct (IH s) as (s'&Hs'&[C1 C2 C3 C4 C5 C6 C7 C8]); [intros b Hb; apply Hl; by right|].
      exists s'. split; [done|]. split; try done. intros a. rewrite C1.
      destruct (heap s !! a); [|done]. unfold bumped. by rewrite Et.
  Qed.

  (** common part of all API calls *)
  Lemma starting s s0 s' t hs new :
    Inv s → allowed t → stack s t = [] → (∀ a, a ∈ hs → 0 < cnt s a) →
    copied s s0 hs → heap s' = heap s0 → cont s' = cont s0 → lock s' = lock s0 → clock s' = clock s0 →
    (∀ t', stack s' t' = if decide (t' = t) then new else stack s t') →
    (∀ f, tsum f s' = tsum f s + lsum f new) →
    tail_ok new → new_ok s [] new →
    (∀ a, vsum a s' + lsum (own a) new = vsum a s + occ a hs) →
    (∀ a, lsum (pend a) new = 0 ∧ lsum (addel a) new = 0 ∧ lsum (freeing a) new = 0 ∧ lsum (pin a) new = 0) →
    lsum ulk new = 0 →
    (∀ x, lsum (making x) new + match vars s !! x with Some None => 1 | _ => 0 end =
          match vars s' !! x with Some None => 1 | _ => 0 end) →
    Inv s'.
  Proof.
    intros [HH HC HS] Hal Ht Hhs [C1 C2 C3 C4 C5 C6 C7 C8] Eh Ec El Ek Hst Hts Htl Hnew Hcnt Hz Hu Hm.
    assert (He : ∀ a, entry s' a = bumped (occ a hs) <$> entry s a).
    { intros a. unfold entry. rewrite Eh, C1. destruct (heap s !! a) as [n|]; simpl; [|done].
      destruct (bumped_facts (occ a hs) n) as (_&->&_). by destruct (n_linked n). }
    assert (Hsh : same_shape s s').
    { split; intros a n; rewrite He.
      - intros ->. simpl. eexists; split; [done|]. pose proof (bumped_facts (occ a hs) n). naive_solver.
      - destruct (entry s a) as [m|]; [|done]. simpl. intros ?; simplify_eq. exists m.
        pose proof (bumped_facts (occ a hs) m). naive_solver. }
    assert (Hc : ∀ a, cnt s' a = cnt s a + occ a hs).
    { intros a. unfold CoreInv.cnt. rewrite Hts. specialize (Hcnt a).
      assert (hsum a s' = hsum a s) by (rewrite <- C2; unfold CoreInv.hsum; by rewrite Eh). lia. }
    assert (Hpe : ∀ a, tsum (pend a) s' = tsum (pend a) s).
    { intros a. rewrite Hts. destruct (Hz a) as (?&?&?&?). lia. }
    assert (Had : ∀ a, tsum (addel a) s' = tsum (addel a) s).
    { intros a. rewrite Hts. destruct (Hz a) as (?&?&?&?). lia. }
    assert (Hpi : ∀ a, tsum (pin a) s' = tsum (pin a) s).
    { intros a. rewrite Hts. destruct (Hz a) as (?&?&?&?). lia. }
    assert (Hfr : ∀ a, tsum (freeing a) s' = tsum (freeing a) s).
    { intros a. rewrite Hts. destruct (Hz a) as (?&?&?&?). lia. }
    assert (Hpos : ∀ a, 0 < cnt s' a ↔ 0 < cnt s a).
    { intros a. rewrite Hc. destruct (decide (a ∈ hs)) as [Hin|Hin].
      - specialize (Hhs a Hin). lia.
      - assert (occ a hs = 0); [|lia]. destruct (occ a hs) eqn:E; [done|].
        exfalso. apply Hin, occ_pos. lia. }
    split.
    - eapply (InvH_shape P FS eqv good Heq HF s); try done; congruence.
    - eapply (C_shape P FS cfg eqv s s' t new); try done.
      + by rewrite Ht.
      + intros a. rewrite Hpos. tauto.
      + intros a. rewrite Hpe. tauto.
      + intros Et a n. rewrite He. destruct (entry s a) as [m|] eqn:Hma; [|done]. simpl. intros ?; simplify_eq.
        rewrite Hc. pose proof (i_ref _ _ _ _ _ HC Et _ _ Hma).
        apply entry_heap in Hma as [_ Hlk]. unfold bumped. rewrite Et, Hlk. simpl. lia.
      + intros Et a n. rewrite He. destruct (entry s a) as [m|] eqn:Hma; [|done]. simpl. intros ?; simplify_eq.
        rewrite Had, Hpe. pose proof (i_del _ _ _ _ _ HC Et _ _ Hma) as Hd.
        destruct (bumped_facts (occ a hs) m) as (_&_&_&->). rewrite Hd.
        f_equal. f_equal. f_equal. apply bool_decide_ext. symmetry. apply Hpos.
      + intros Et a n. rewrite He. destruct (entry s a) as [m|] eqn:Hma; [|done]. simpl. intros _.
        rewrite Hpos, Hpe, Hpi. by eapply HC.
      + intros a n Hn Hv Hc0 Hp0. rewrite Hpe. split; [|done].
        destruct (Nat.eq_dec (cnt s' a) 0); [done|]. assert (0 < cnt s a) by (apply Hpos; lia). lia.
      + intros. rewrite Ht in *. done.
      + intros a. rewrite Hfr, Eh, C1, (i_free _ _ _ _ _ HC). destruct (heap s !! a) as [n|]; [|done]. simpl.
        by destruct (bumped_facts (occ a hs) n) as (_&->&_).
    - eapply (InvS_same _ _ _ s); try done.
      + congruence.
      + intros _. by rewrite Hu, Ht.
      + intros x. rewrite Hts. specialize (Hm x). pose proof (i_vars _ _ _ _ HS x). lia.
  Qed.

  Lemma live_vars s x h : live s x = Some h → vars s !! x = Some (Some h).
  Proof. unfold live. repeat case_match; naive_solver. Qed.
  Lemma live_cnt s x h : live s x = Some h → 0 < cnt s h.
  Proof.
    intros Hx%live_vars. pose proof (msum_ge (vcount h) _ _ _ Hx) as E. simpl in E. rewrite at_eq in E.
    unfold CoreInv.cnt, CoreInv.vsum. lia.
  Qed.
  Lemma live_entry s x h : Inv s → live s x = Some h → ∃ n, entry s h = Some n ∧ done_node n.
  Proof. intros HI Hx%live_cnt. by apply (i_hnd _ _ _ _ _ (i_C _ _ _ _ _ _ _ _ HI)). Qed.

  (** what lies inside a referenced entry is referenced *)
  Lemma inner_ok s h path : Inv s → 0 < cnt s h → match inner P FS s h path with
    | None => False | Some None => True | Some (Some h') => 0 < cnt s h' end.
  Proof.
    intros HI. revert h. induction path as [|j path IH]; intros h Hc; simpl; [done|].
    destruct (i_hnd _ _ _ _ _ (i_C _ _ _ _ _ _ _ _ HI) h Hc) as (n&Hn&v&Hv). rewrite Hn, Hv.
    destruct (p_kids P (n_rep n) !! j) as [h'|] eqn:Hj; [|done]. apply IH.
    eapply (kid_cnt P FS s h n); [done|by eapply elem_of_list_lookup_2].
  Qed.
  Lemma inner_live s y h path : Inv s → live s y = Some h →
    inner P FS s h path = Some None ∨ ∃ h' n, inner P FS s h path = Some (Some h') ∧ 0 < cnt s h' ∧ entry s h' = Some n ∧ done_node n.
  Proof.
    intros HI Hy. pose proof (inner_ok s h path HI (live_cnt _ _ _ Hy)) as H.
    destruct (inner P FS s h path) as [[h'|]|]; [right|by left|done].
    destruct (i_hnd _ _ _ _ _ (i_C _ _ _ _ _ _ _ _ HI) h' H) as (n&Hn&Hv). by exists h', n.
  Qed.

  Lemma empty_stack s t : stack s t = [] →
    (∀ t', stack s t' = if decide (t' = t) then [] else stack s t').
  Proof. intros E t'. case_decide; congruence. Qed.

  Lemma start_tsum s s1 t new : stacks s1 = stacks s → stack s t = [] →
    (∀ t', stack (set_stack t new s1) t' = if decide (t' = t) then new else stack s t') ∧
    (∀ f, tsum f (set_stack t new s1) = tsum f s + lsum f new).
  Proof.
    intros E Ht. destruct (stk_facts FS s s1 t new E) as [H1 H2]. split; [done|].
    intros f. specialize (H2 f). rewrite Ht, lsum_nil in H2. lia.
  Qed.

  Ltac lsimp := repeat (progress (rewrite ?lsum_cons, ?lsum_app, ?lsum_nil,
     ?(lsum_own_release P), ?(lsum_release (pend _)), ?(lsum_release (addel _)), ?(lsum_release (freeing _)),
     ?(lsum_release (pin _)), ?(lsum_release (making _)), ?(lsum_release ulk) by done; simpl)).

  Lemma occ_1 a h : occ a [h] = at_ a h.
  Proof. rewrite occ_cons, occ_nil. unfold at_. by case_decide. Qed.

  Lemma start_ok s t o : Inv s → allowed t → stack s t = [] → res_ok (start P FS cfg s t o).
  Proof.
    intros HI Hal Ht. destruct o as [x p ys|x y|x y|x y|x|x|x y path]; simpl.
    - destruct (vars s !! x) eqn:Hx; [done|]. destruct (mapM (live s) ys) as [ks|] eqn:Hks; [|done].
      apply mapM_Some in Hks.
      assert (Hk : ∀ a, a ∈ ks → ∃ y, live s y = Some a).
      { intros a Ha. apply elem_of_list_lookup in Ha as [j Hj].
        destruct (Forall2_lookup_r _ _ _ _ _ Hks Hj) as (y&_&Hy). eauto. }
      destruct (copy_handles_spec s ks) as (s1&Hs1&Hcp).
      { intros a [y Hy]%Hk. destruct (live_entry _ _ _ HI Hy) as (n&Hn&_). eauto. }
      rewrite Hs1. pose proof Hcp as [C1 C2 C3 C4 C5 C6 C7 C8].
      destruct (p_make P p ks) as [r|] eqn:Hr; simpl.
      + set (s2 := set_vars (<[x:=None]> (vars s1)) s1).
        destruct (start_tsum s s2 t [ILockFind x p r]) as [H1 H2]; [done|done|].
        eapply (starting s s1 _ t ks); try done.
        * intros a [y Hy]%Hk. by eapply live_cnt.
        * constructor.
        * split; [by eexists|]. intros i Hi. apply elem_of_list_singleton in Hi as ->. by right.
        * intros a. unfold CoreInv.vsum. simpl. rewrite C4.
          pose proof (msum_new (vcount a) _ _ None Hx) as E. simpl in E. lsimp.
          destruct (po_make _ _ _ HP _ _ _ Hr) as [_ Ho]. rewrite (Ho a). lia.
        * intros y. simpl. rewrite C4. lsimp. destruct (decide (y = x)) as [->|Hne].
          -- by rewrite lookup_insert, at_eq, Hx.
          -- by rewrite lookup_insert_ne, at_ne.
      + set (s2 := set_vars (<[x:=None]> (vars s1)) s1).
        destruct (start_tsum s s2 t (map IRelease ks ++ [IAbort x])) as [H1 H2]; [done|done|].
        assert (Forall simple (map (IRelease (K:=K) (A:=A) (R:=R)) ks ++ [IAbort x])).
        { apply tail_app. by repeat constructor. }
        eapply (starting s s1 _ t ks); try done.
        * intros a [y Hy]%Hk. by eapply live_cnt.
        * destruct H; done.
        * split; [by destruct ks|]. intros i Hi. right. apply elem_of_app in Hi as [Hi|Hi].
          -- by eapply release_ok.
          -- apply elem_of_list_singleton in Hi as ->. done.
        * intros a. unfold CoreInv.vsum. simpl. rewrite C4.
          pose proof (msum_new (vcount a) _ _ None Hx) as E. simpl in E. lsimp. lia.
        * intros a. lsimp. done.
        * lsimp. done.
        * intros y. simpl. rewrite C4. lsimp. destruct (decide (y = x)) as [->|Hne].
          -- by rewrite lookup_insert, at_eq, Hx.
          -- by rewrite lookup_insert_ne, at_ne.
    - destruct (vars s !! x) eqn:Hx; [done|]. destruct (live s y) as [h|] eqn:Hy; [|done].
      destruct (copy_handles_spec s [h]) as (s1&Hs1&Hcp).
      { intros a ->%elem_of_list_singleton. destruct (live_entry _ _ _ HI Hy) as (n&Hn&_). eauto. }
      simpl in Hs1. destruct (copy_handle FS cfg s h) as [s1'|]; simplify_eq. simpl.
      pose proof Hcp as [C1 C2 C3 C4 C5 C6 C7 C8].
      eapply (starting s s1 _ t [h] []); try done.
      + intros a ->%elem_of_list_singleton. by eapply live_cnt.
      + intros t'. unfold stack. simpl. rewrite C6. by apply empty_stack.
      + intros f. unfold CoreInv.tsum. simpl. rewrite C6, lsum_nil. lia.
      + split; [done|]. intros i Hi. by apply elem_of_nil in Hi.
      + intros a. unfold CoreInv.vsum. simpl. rewrite C4, occ_1, lsum_nil.
        pose proof (msum_new (vcount a) _ _ (Some h) Hx) as E. simpl in E. lia.
      + intros z. simpl. rewrite C4, ?lsum_nil. simpl. destruct (decide (z = x)) as [->|Hne].
        * by rewrite lookup_insert, Hx.
        * by rewrite lookup_insert_ne.
    - destruct (live s x) as [hx|] eqn:Hx; [|done]. destruct (live s y) as [hy|] eqn:Hy; [|done].
      destruct (copy_handles_spec s [hy]) as (s1&Hs1&Hcp).
      { intros a ->%elem_of_list_singleton. destruct (live_entry _ _ _ HI Hy) as (n&Hn&_). eauto. }
      simpl in Hs1. destruct (copy_handle FS cfg s hy) as [s1'|]; simplify_eq. simpl.
      pose proof Hcp as [C1 C2 C3 C4 C5 C6 C7 C8].
      set (s2 := set_vars (<[x:=Some hy]> (vars s1)) s1).
      destruct (start_tsum s s2 t [IRelease hx]) as [H1 H2]; [done|done|].
      pose proof (live_vars _ _ _ Hx) as Hx'.
      eapply (starting s s1 _ t [hy] [IRelease hx]); try done.
      + intros a ->%elem_of_list_singleton. by eapply live_cnt.
      + constructor.
      + split; [done|]. intros i Hi. apply elem_of_list_singleton in Hi as ->. by right.
      + intros a. unfold CoreInv.vsum. simpl. rewrite C4, occ_1. lsimp.
        pose proof (msum_upd (vcount a) _ _ _ (Some hy) Hx') as E. simpl in E. lia.
      + intros z. simpl. rewrite C4. lsimp. destruct (decide (z = x)) as [->|Hne].
        * by rewrite lookup_insert, Hx'.
        * by rewrite lookup_insert_ne.
    - destruct (live s x) as [hx|] eqn:Hx; [|done]. destruct (live s y) as [hy|] eqn:Hy; [|done]. simpl.
      pose proof (live_vars _ _ _ Hx) as Hx'. pose proof (live_vars _ _ _ Hy) as Hy'.
      eapply (starting s s _ t [] []); try done.
      + intros a Ha. by apply elem_of_nil in Ha.
      + apply copied_refl.
      + intros t'. unfold stack. simpl. by apply empty_stack.
      + split; [done|]. intros i Hi. by apply elem_of_nil in Hi.
      + intros a. unfold CoreInv.vsum. simpl. rewrite occ_nil, lsum_nil.
        pose proof (msum_upd (vcount a) _ _ _ (Some hy) Hx') as E.
        assert (Hy2 : <[x:=Some hy]> (vars s) !! y = Some (Some hy)).
        { destruct (decide (x = y)) as [->|]; [by rewrite lookup_insert|by rewrite lookup_insert_ne]. }
        pose proof (msum_upd (vcount a) _ _ _ (Some hx) Hy2) as E2. simpl in *. lia.
      + intros z. simpl. rewrite ?lsum_nil. simpl. destruct (decide (z = y)) as [->|Hne].
        * by rewrite lookup_insert, Hy'.
        * rewrite lookup_insert_ne by done. destruct (decide (z = x)) as [->|Hne'].
          -- by rewrite lookup_insert, Hx'.
          -- by rewrite lookup_insert_ne.
    - destruct (live s x) as [h|] eqn:Hx; [|done]. simpl. pose proof (live_vars _ _ _ Hx) as Hx'.
      set (s2 := set_vars (delete x (vars s)) s).
      destruct (start_tsum s s2 t [IRelease h]) as [H1 H2]; [done|done|].
      eapply (starting s s _ t [] [IRelease h]); try done.
      + intros a Ha. by apply elem_of_nil in Ha.
      + apply copied_refl.
      + constructor.
      + split; [done|]. intros i Hi. apply elem_of_list_singleton in Hi as ->. by right.
      + intros a. unfold CoreInv.vsum. simpl. rewrite occ_nil. lsimp.
        pose proof (msum_delete (vcount a) _ _ _ Hx') as E. simpl in E. lia.
      + intros z. simpl. lsimp. destruct (decide (z = x)) as [->|Hne].
        * by rewrite lookup_delete, Hx'.
        * by rewrite lookup_delete_ne.
    - destruct (live s x) as [h|] eqn:Hx; [|done].
      destruct (live_entry _ _ _ HI Hx) as (n&Hn&v&Hv). rewrite Hn, Hv. simpl.
      destruct HI as [HH HC HS]. split.
      + eapply (InvH_shape P FS eqv good Heq HF s); try done. by apply same_shape_heap.
      + destruct HC. split; done.
      + destruct HS. split; done.
    - destruct (vars s !! x) eqn:Hx; [done|]. destruct (live s y) as [h0|] eqn:Hy; [|done].
      destruct (inner_live s y h0 path HI Hy) as [->|(h&n&->&Hc&Hn&_)]; [done|].
      destruct (copy_handles_spec s [h]) as (s1&Hs1&Hcp).
      { intros a ->%elem_of_list_singleton. eauto. }
      simpl in Hs1. rewrite Hn. destruct (copy_handle FS cfg s h) as [s1'|]; simplify_eq. simpl.
      pose proof Hcp as [C1 C2 C3 C4 C5 C6 C7 C8].
      eapply (starting s s1 _ t [h] []); try done.
      + by intros a ->%elem_of_list_singleton.
      + intros t'. unfold stack. simpl. rewrite C6. by apply empty_stack.
      + intros f. unfold CoreInv.tsum. simpl. rewrite C6, lsum_nil. lia.
      + split; [done|]. intros i Hi. by apply elem_of_nil in Hi.
      + intros a. unfold CoreInv.vsum. simpl. rewrite C4, occ_1, lsum_nil.
        pose proof (msum_new (vcount a) _ _ (Some h) Hx) as E. simpl in E. lia.
      + intros z. simpl. rewrite C4, ?lsum_nil. simpl. destruct (decide (z = x)) as [->|Hne].
        * by rewrite lookup_insert, Hx.
        * by rewrite lookup_insert_ne.
  Qed.

  Lemma step_ok s l : Inv s → allowed (label_tid l) → res_ok (step P FS cfg s l).
  Proof.
    intros HI Hal. destruct l as [t o|t c]; simpl in *.
    - destruct (stack s t) eqn:E; [by apply start_ok|done].
    - destruct (stack s t) as [|i rest] eqn:E; [done|]. by eapply exec_ok.
  Qed.

  Lemma init_inv : Inv (init FS).
  Proof.
    assert (He : ∀ a, entry (init FS : state) a = None).
    { intros a. unfold entry. simpl. by rewrite lookup_empty. }
    assert (Hs : ∀ t, stack (init FS : state) t = []).
    { intros t. unfold stack. simpl. by rewrite lookup_empty. }
    assert (Hc : ∀ a, cnt (init FS) a = 0).
    { intros a. unfold CoreInv.cnt, CoreInv.vsum, CoreInv.hsum, CoreInv.tsum. simpl. by rewrite !msum_empty. }
    assert (Ht : ∀ f, tsum f (init FS : state) = 0).
    { intros f. unfold CoreInv.tsum. simpl. by rewrite msum_empty. }
    split; split; try (intros; rewrite ?He, ?Hs, ?Hc, ?Ht in *; first [done|lia]).
    - simpl. assert (linked_set FS (init FS : state) = ∅) as ->.
      { apply set_eq. intros a. rewrite elem_of_linked, He. set_solver. }
      eapply fi_empty.
    - intros t i Hi. rewrite Hs in Hi. by apply elem_of_nil in Hi.
    - intros t i Hi. rewrite Hs in Hi. by apply elem_of_nil in Hi.
  Qed.

  Lemma run_ok ls s : Inv s → Forall (λ l, allowed (label_tid l)) ls →
    ∃ s', run P FS cfg s ls = Next s' ∧ Inv s'.
  Proof.
    revert s. induction ls as [|l ls IH]; intros s HI Hal; simpl; [by eauto|].
    inversion Hal; subst. pose proof (step_ok s l HI H1) as Hs. unfold CoreStep.res_ok in Hs.
    destruct (step P FS cfg s l); [by apply IH|by apply IH|done].
  Qed.
End Run.
