(** C63 in terms of the graph of [ConHbGraph.v], i.e. of happens-before as the
    C++ standard defines it. *)
From Verif Require Import PropCoreHb PropCoreGraph ConcurrentPolicies.
From Verif Require Import PropConHb.
From Verif Require Import CoreHbWf ConHbGraphRun.

(** ** Exclusive access to elements: who has it is in the log *)
Definition leaves (lg : glog) (t : tid) (n i j : nat) : Prop := ∃ k, i < k < j ∧ lg !! k = Some (t, XLeave n).
Definition nid (d : chb) (h : addr) : option nat := fst <$> nd (co d) !! h.

Lemma nid_use t x d h : nid (use t x d) h = nid d h.
Proof. done. Qed.
Lemma nid_all t x d h : nid (all_uses t x d) h = nid d h.
Proof. done. Qed.
Lemma nid_done t x d h : nid (done_ t x d) h = nid d h.
Proof. unfold nid, done_, on_co. cbn [co]. by rewrite nd_used. Qed.
Lemma nid_rmw q r z t b d h : nid (crmw q r z t b d) h = nid d h.
Proof.
  unfold nid, crmw. cbn [co]. destruct (nd (co d) !! b) as [[j E]|] eqn:Hb.
  - rewrite (nd_rmw q r t b _ j E Hb). destruct r; [|done]. destruct (decide (h = b)) as [->|Hne]; [by rewrite lookup_insert, Hb|by rewrite lookup_insert_ne].
  - unfold rmw, rel. destruct q, r; simpl; by rewrite ?Hb.
Qed.
Lemma nid_copy i t y b d h : nid (ccopy i t y b d) h = nid d h.
Proof. unfold ccopy, cincr. by rewrite nid_done, nid_rmw. Qed.
Lemma nxt_done t x d : nxt (co (done_ t x d)) = nxt (co d).
Proof. unfold done_, on_co. cbn [co]. apply nxt_used. Qed.
Lemma nxt_crmw q r z t h d : nxt (co (crmw q r z t h d)) = S (nxt (co d)).
Proof. unfold crmw. cbn [co]. apply nxt_rmw. Qed.
Lemma nxt_copy i t y b d : nxt (co (ccopy i t y b d)) = S (nxt (co d)).
Proof. unfold ccopy, cincr. by rewrite nxt_done, nxt_crmw. Qed.

Section Elements.
  Context {K A R V : Type}.
  Context (P : Core.policy K A R V) (eqv : K → K → bool) (good : R → Prop).
  Context (Heq : equivalence eqv) (HP : policy_ok eqv good P).
  Context (inc_sync dec_acq : bool).
  Notation state := (Concurrent.state (K:=K) (A:=A) (R:=R)).
  Notation instr := (instr (K:=K) (A:=A) (R:=R)).
  Notation cstep := (cstep P eqv inc_sync true dec_acq true).
  Notation crun := (crun P eqv inc_sync true dec_acq true).
  Notation cexec := (cexec P eqv inc_sync true dec_acq).
  Notation cstart := (cstart (K:=K) (A:=A) (R:=R) inc_sync).
  Notation cwalk := (cwalk P inc_sync true dec_acq).
  Notation g_exec := (g_exec P eqv inc_sync true dec_acq).
  Notation g_start := (g_start (K:=K) (A:=A) (R:=R) inc_sync).
  Notation g_walk := (g_walk P inc_sync true dec_acq).
  Notation g_step := (g_step P eqv inc_sync true dec_acq true).
  Notation g_run := (g_run P eqv inc_sync true dec_acq true).
  Notation G := (G P eqv good).
  Implicit Types (s : state) (d : chb) (h : addr) (lg : glog).

  Definition has_ s h (t : tid) : Prop := ∃ n, ents s !! h = Some n ∧ n_own n = Some t.
  Record M lg s d : Prop := {
    m_own : ∀ i t n, lg !! i = Some (t, XEnter n) → leaves lg t n i (length lg) ∨
      (∃ h, nid d h = Some n ∧ has_ s h t) ∨ (n < nxt (co d) ∧ ∀ h, nid d h ≠ Some n);
    m_ex : ∀ i j t u n, i < j → lg !! i = Some (t, XEnter n) → lg !! j = Some (u, XEnter n) → leaves lg t n i j;
    m_id : ∀ h n, nid d h = Some n → n < nxt (co d);
    m_inj : ∀ h h' n, nid d h = Some n → nid d h' = Some n → h = h';
  }.
  Lemma leaves_ext lg l t n i j : leaves lg t n i j → leaves (lg ++ l) t n i j.
  Proof. intros (k&Hk&H). exists k. split; [done|by apply look_ext]. Qed.
  Lemma leaves_le lg t n i j j' : j ≤ j' → leaves lg t n i j → leaves lg t n i j'.
  Proof. intros Hj (k&Hk&H). exists k. split; [lia|done]. Qed.

  (** actions of a thread, none of which begins access *)
  Lemma M_chunk lg s d t l s' d' : M lg s d → (∀ n, XEnter n ∉ l) → nxt (co d) ≤ nxt (co d') →
    (∀ h n, nid d' h = Some n → nid d h = Some n ∨ nxt (co d) ≤ n ∧ n < nxt (co d') ∧ ∀ h', nid d' h' = Some n → h' = h) →
    (∀ h n u, nid d h = Some n → has_ s h u → (nid d' h = Some n ∧ has_ s' h u) ∨ (u = t ∧ XLeave n ∈ l) ∨ nid d' h ≠ Some n) →
    M (lg ++ (pair t <$> l)) s' d'.
  Proof.
    intros [M1 M2 M3 M4] Hl Hx Hn Ho.
    assert (Hin : ∀ i u n, (lg ++ (pair t <$> l)) !! i = Some (u, XEnter n) → lg !! i = Some (u, XEnter n)).
    { intros i u n [H|[_ H]]%lookup_app_Some; [done|]. apply elem_of_list_lookup_2, elem_of_list_fmap in H as (a&[= -> <-]&Ha). by destruct (Hl n). }
    assert (Hlen : length lg ≤ length (lg ++ (pair t <$> l))) by (rewrite app_length; lia).
    assert (Hgone : ∀ n, n < nxt (co d) → (∀ h, nid d h ≠ Some n) → ∀ h, nid d' h ≠ Some n).
    { intros n Hlt Hno h Hh. destruct (Hn h n Hh) as [Hh'|[? _]]; [by eapply Hno|lia]. }
    split.
    - intros i u n Hi%Hin. destruct (M1 i u n Hi) as [Hlv|[(h&Hh&Hu)|[Hlt Hno]]].
      + left. eapply leaves_le; [done|]. by apply leaves_ext.
      + destruct (Ho h n u Hh Hu) as [?|[[-> He]|Hno]]; [right; left; by exists h| |].
        * left. apply elem_of_list_lookup in He as [k Hk]. exists (length lg + k). apply lookup_lt_Some in Hi. pose proof (lookup_lt_Some _ _ _ Hk).
          rewrite app_length, fmap_length. split; [lia|]. rewrite lookup_app_r by lia. replace (length lg + k - length lg) with k by lia. by rewrite list_lookup_fmap, Hk.
        * right. right. specialize (M3 h n Hh). split; [lia|]. intros h' Hh'. destruct (Hn h' n Hh') as [Hh1|[? _]]; [|lia].
          rewrite (M4 h' h n Hh1 Hh) in Hh'. done.
      + right. right. split; [lia|by apply Hgone].
    - intros i j u v n Hij Hi%Hin Hj%Hin. apply leaves_ext. by eapply M2.
    - intros h n Hh. destruct (Hn h n Hh) as [H%M3|(?&?&_)]; lia.
    - intros h h' n Hh Hh'. destruct (Hn h n Hh) as [H1|(H1&_&Hu)]; [|symmetry; by apply Hu].
      destruct (Hn h' n Hh') as [H2|(_&_&Hu)]; [by eapply M4|by apply Hu].
  Qed.
  Lemma M_same lg s d t l s' d' : M lg s d → (∀ n, XEnter n ∉ l) → nxt (co d) ≤ nxt (co d') → (∀ h, nid d' h = nid d h) →
    (∀ h u, has_ s h u → has_ s' h u) → M (lg ++ (pair t <$> l)) s' d'.
  Proof.
    intros HM Hl Hx Hn Ho. eapply M_chunk; [done|done|done|..].
    - intros h n. rewrite Hn. auto.
    - intros h n u Hh Hu. left. rewrite Hn. auto.
  Qed.
  Lemma M_enter lg s d t n s' d' h : M lg s d → (∀ i u, lg !! i = Some (u, XEnter n) → leaves lg u n i (length lg)) →
    nxt (co d) = nxt (co d') → (∀ h, nid d' h = nid d h) → nid d h = Some n → has_ s' h t → (∀ h' u, has_ s h' u → has_ s' h' u) →
    M (lg ++ [(t, XEnter n)]) s' d'.
  Proof.
    intros [M1 M2 M3 M4] Hlv Hx Hn Hh Ht Ho.
    split.
    - intros i u n' [[_ Hi]|[-> [= -> ->]]]%lookup_snoc_Some; [|right; left; exists h; by rewrite Hn].
      destruct (M1 i u n' Hi) as [H|[(b&Hb&Hu)|[Hlt Hno]]].
      + left. rewrite app_length. eapply leaves_le; [|by apply leaves_ext]. lia.
      + right. left. exists b. rewrite Hn. auto.
      + right. right. rewrite <-Hx. split; [done|]. intros b. by rewrite Hn.
    - intros i j u v n' Hij Hi Hj. apply lookup_snoc_Some in Hj as [[_ Hj]|[-> [= -> ->]]].
      + apply lookup_snoc_Some in Hi as [[_ Hi]|[-> _]]; [apply leaves_ext; by eapply M2|]. apply lookup_lt_Some in Hj. lia.
      + apply lookup_snoc_Some in Hi as [[_ Hi]|[-> _]]; [|lia]. apply leaves_ext. by apply Hlv.
    - intros b m. rewrite Hn, <-Hx. apply M3.
    - intros b b' m. rewrite !Hn. apply M4.
  Qed.
  (** nobody has access *)
  Lemma free_left lg s d h n : M lg s d → nid d h = Some n → (∀ u, ¬ has_ s h u) → ∀ i u, lg !! i = Some (u, XEnter n) → leaves lg u n i (length lg).
  Proof.
    intros HM Hh Hf i u Hi. destruct (m_own _ _ _ HM i u n Hi) as [|[(b&Hb&Hu)|[_ Hno]]]; [done| |by destruct (Hno h)].
    rewrite (m_inj _ _ _ HM b h n Hb Hh) in Hu. by destruct (Hf u).
  Qed.

  Lemma keep_cnt s h n z : ents s !! h = Some n → ∀ b u, has_ s b u → ∃ m, <[h:=with_cnt n z]> (ents s) !! b = Some m ∧ n_own m = Some u.
  Proof.
    intros Hn b u (m&Hm&Hu). destruct (decide (b = h)) as [->|Hne]; [|exists m; by rewrite lookup_insert_ne].
    rewrite Hn in Hm. injection Hm as <-. exists (with_cnt n z). by rewrite lookup_insert.
  Qed.
  Lemma add_ref_keep s h s' : add_ref h s = Some s' → ∀ b u, has_ s b u → has_ s' b u.
  Proof. unfold add_ref. destruct (ents s !! h) as [n|] eqn:Hn; intros [= <-]. by apply keep_cnt. Qed.
  Lemma release_keep s h s' : release h s = Some s' → ∀ b u, has_ s b u → has_ s' b u.
  Proof. unfold release. destruct (ents s !! h) as [n|] eqn:Hn; intros [= <-]. by apply keep_cnt. Qed.
  (** access to [h] ends *)
  Lemma M_leave lg s d t h m s' d' l : M lg s d → (∀ n, XEnter n ∉ l) → nxt (co d) ≤ nxt (co d') → (∀ h, nid d' h = nid d h) → XLeave (idn (co d) h) ∈ l →
    (∀ u, has_ s h u → u = t) → ents s' = <[h:=m]> (ents s) → M (lg ++ (pair t <$> l)) s' d'.
  Proof.
    intros HM Hl Hx Hn He Ho Hs. eapply M_chunk; [done|done|done|..].
    - intros b n. rewrite Hn. auto.
    - intros b n u Hb Hu. destruct (decide (b = h)) as [->|Hne].
      + right. left. split; [by apply Ho|]. unfold nid in Hb. unfold idn in He. destruct (nd (co d) !! h) as [[i E]|]; [|done]. simpl in Hb. by injection Hb as <-.
      + left. rewrite Hn. split; [done|]. destruct Hu as (n'&?&?). exists n'. by rewrite Hs, lookup_insert_ne.
  Qed.

  Lemma exec_M lg s d t i rest thr s' : Inv P eqv good s → ConHbInv.J P s (co d) (lset d) → M lg s d → stack s t = i :: rest → exec P eqv s t i rest thr = Next s' →
    M (lg ++ (pair t <$> g_exec s t i thr (co d))) s' (cexec s t i thr d).
  Proof.
    intros HI HJ HM Hst He. assert (Htop : i ∈ stack s t) by (rewrite Hst; by left).
    assert (Hacc : ∀ h, 0 < ConcurrentInv.acc h i → ∀ u, has_ s h u → u = t).
    { intros h Hh u (n&Hn&Hu). destruct (accessed P eqv good s t i h HI Htop Hh) as (n'&Hn'&Ho). congruence. }
    assert (Hnd : ∀ h, is_Some (ents s !! h) → ∃ n, nid d h = Some n ∧ idn (co d) h = n).
    { intros h Hh%(j_nd _ _ _ _ HJ). destruct Hh as [[j E] Hj]. exists j. unfold nid, idn. by rewrite Hj. }
    assert (Hadd : ∀ h q r z n s1 l, add_ref h s = Some s1 → M (lg ++ [(t, XRmw n (idn (co d) h) z q r)]) (set_stack t l s1) (crmw q r z t h d)).
    { intros h q r z n s1 l H1. apply (M_same lg s d t [_]); [done|intros m; set_solver|rewrite nxt_crmw; lia|intros b; by rewrite nid_rmw|]. exact (add_ref_keep s h s1 H1). }
    assert (Hrel : ∀ h q r z n s1 l, release h s = Some s1 → M (lg ++ [(t, XRmw n (idn (co d) h) z q r)]) (set_stack t l s1) (crmw q r z t h d)).
    { intros h q r z n s1 l H1. apply (M_same lg s d t [_]); [done|intros m; set_solver|rewrite nxt_crmw; lia|intros b; by rewrite nid_rmw|]. exact (release_keep s h s1 H1). }
    destruct i as [x p [|y ys] got|x p r|x h p ks k|x h ks k|x h ks k|h|x h k|x|x h|x y hx hy|x y hx hy|x y hx hy|h [|j]|h|h|h]; cbn [ConHb.cexec ConHbGraph.g_exec exec] in *.
    - apply (M_same lg s d t []); [done|intros m; set_solver|done|done|]. destruct (p_make P p got); by injection He as <-.
    - destruct (live s y) as [h|]; [|done]. destruct (add_ref h s) as [s1|] eqn:H1; [|done]. injection He as <-.
      apply M_same with s d; [done|intros m; unfold g_copy, g_inc; set_solver|rewrite nxt_copy; lia|intros b; by rewrite nid_copy|exact (add_ref_keep s h s1 H1)].
    - destruct thr; [injection He as <-; by apply (M_same lg s d t []); [done|intros m; set_solver|done|done|]|].
      destruct (find P eqv s (p_key P r)) as [h|] eqn:Hf.
      + destruct (ents s !! h) as [[r1 z1 [o1|]]|] eqn:Hn; [done| |done]. injection He as <-. destruct (Hnd h) as (n&Hh&->); [by eexists|].
        rewrite fmap_cons, cons_middle, app_assoc. set (s' := set_stack _ _ _).
        assert (Hfree : ∀ u, ¬ has_ s h u) by (intros u (m&Hm&Hu); rewrite Hn in Hm; by simplify_eq).
        assert (Hme : has_ s' h t) by (eexists; unfold s'; simpl; by rewrite lookup_insert).
        assert (Hk : ∀ b u, has_ s b u → has_ s' b u).
        { intros b u (m&Hm&Hu). destruct (decide (b = h)) as [->|Hne]; [by rewrite Hn in Hm; simplify_eq|]. exists m. unfold s'. simpl. by rewrite lookup_insert_ne. }
        apply (M_same _ s' (enter t h d) t [_]); [|intros m; set_solver|simpl; lia|done|done].
        apply M_enter with s d h; try done. by apply (free_left lg s d h n).
      + injection He as <-. rewrite fmap_cons, cons_middle, app_assoc. set (s' := set_clock _ _). set (d' := ccreate t (clock s) d). set (n := nxt (co d)).
        assert (Hno : ents s !! clock s = None) by (destruct (ents s !! clock s) as [m|] eqn:E; [apply (i_low _ _ _ _ HI) in E; lia|done]).
        assert (Hnid : ∀ b, nid d' b = if decide (b = clock s) then Some n else nid d b).
        { intros b. unfold nid, d', ccreate. simpl. case_decide; [subst; by rewrite lookup_insert|by rewrite lookup_insert_ne]. }
        assert (Hk : ∀ b u, has_ s b u → has_ s' b u).
        { intros b u (m&Hm&Hu). exists m. unfold s'. simpl. rewrite lookup_insert_ne; [done|]. intros <-. congruence. }
        assert (H1 : M (lg ++ (pair t <$> [XEv n])) s d').
        { eapply M_chunk; [done|intros m; set_solver|unfold d'; simpl; lia|..].
          - intros b m. rewrite Hnid. case_decide; [|by left]. intros [= <-]. right. unfold d'. simpl. split_and!; [lia|unfold n; lia|].
            intros b'. rewrite Hnid. case_decide; [by subst|]. intros H1%(m_id _ _ _ HM). unfold n in H1. lia.
          - intros b m u Hb Hu. left. rewrite Hnid. rewrite decide_False; [done|]. intros ->. destruct Hu as (?&?&_). congruence. }
        apply (M_enter _ s d' t n s' d' (clock s)); [done| |done|done|by rewrite Hnid, decide_True|eexists; unfold s'; simpl; by rewrite lookup_insert|done].
        apply (free_left _ s d' (clock s)); [done|by rewrite Hnid, decide_True|]. intros u (?&?&_). congruence.
    - destruct (ents s !! h) as [n|] eqn:Hn; [|done]. destruct (p_val P (n_rep n)).
      + injection He as <-. by apply (M_same lg s d t [_]); [done|intros m; set_solver|simpl; lia|..].
      + destruct thr; injection He as <-.
        * apply (M_leave lg s d t h (with_own n None)); [done|intros m; set_solver|simpl; lia|done|set_solver| |done]. apply Hacc. simpl. rewrite at_eq. lia.
        * apply (M_same lg s d t [_]); [done|intros m; set_solver|simpl; lia|done|].
          intros b u (m&Hm&Hu). unfold has_. simpl. destruct (decide (b = h)) as [->|Hne]; [rewrite lookup_insert|rewrite lookup_insert_ne by done; by exists m].
          eexists. split; [done|]. rewrite Hn in Hm. by injection Hm as <-.
    - destruct (add_ref h s) as [s1|] eqn:H1; [|done]. injection He as <-. by apply Hadd.
    - destruct (ents s !! h) as [n|] eqn:Hn; [|done]. injection He as <-.
      apply (M_leave lg s d t h (with_own n None) _ _ [_]); [done|intros m; set_solver|simpl; lia|done|set_solver| |done]. apply Hacc. simpl. rewrite at_eq. lia.
    - destruct (release h s) as [s1|] eqn:H1; [|done]. injection He as <-. by apply Hrel.
    - injection He as <-. by apply (M_same lg s d t [_]); [done|intros m; set_solver|simpl; lia|..].
    - injection He as <-. by apply (M_same lg s d t []); [done|intros m; set_solver|simpl; lia|..].
    - assert (ents s' = ents s) as Es by (revert He; repeat case_match; intros; simplify_eq/=; done).
      apply (M_same lg s d t [_; _; _]); [done|intros m; set_solver|rewrite nxt_done; simpl; lia|intros b; by rewrite nid_done|]. intros b u. unfold has_. by rewrite Es.
    - destruct (add_ref hy s) as [s1|] eqn:H1; [|done]. injection He as <-. by apply Hadd.
    - destruct (add_ref hx s) as [s1|] eqn:H1; [|done]. injection He as <-. by apply Hadd.
    - injection He as <-. by apply (M_same lg s d t [_; _]); [done|intros m; set_solver|simpl; lia|..].
    - destruct (release h s) as [s1|] eqn:H1; [|done]. injection He as <-. by apply Hrel.
    - destruct (add_ref h s) as [s1|] eqn:H1; [|done]. injection He as <-. by apply Hadd.
    - destruct (ents s !! h) as [n|] eqn:Hn; [|done]. injection He as <-. by apply (M_same lg s d t []); [done|intros m; set_solver|simpl; lia|..].
    - destruct (ents s !! h) as [n|] eqn:Hn; [|done]. injection He as <-.
      assert (Hnid : ∀ b, nid (cdestroy t h d) b = if decide (b = h) then None else nid d b).
      { intros b. unfold nid, cdestroy. simpl. case_decide; [subst; by rewrite lookup_delete|by rewrite lookup_delete_ne]. }
      eapply (M_chunk lg s d t [_]); [done|intros m; set_solver|simpl; lia|..].
      + intros b m. rewrite Hnid. case_decide; [done|by left].
      + intros b m u Hb Hu. rewrite Hnid. case_decide; [by right; right|left]. split; [done|]. destruct Hu as (m'&?&?). exists m'. simpl. by rewrite lookup_delete_ne.
    - destruct (ents s !! h) as [n|] eqn:Hn; [|done]. injection He as <-.
      apply (M_leave lg s d t h (with_own n None) _ _ [_]); [done|intros m; set_solver|simpl; lia|done|set_solver| |done]. apply Hacc. simpl. rewrite at_eq. lia.
  Qed.

  Lemma start_M lg s d t o s' : M lg s d → start s t o = Next s' → M (lg ++ (pair t <$> g_start s o (co d))) s' (cstart s t o d).
  Proof.
    intros HM He.
    assert (Hk : ∀ h s1, add_ref h s = Some s1 → ∀ b u, has_ s b u → has_ s1 b u) by (intros h s1; apply add_ref_keep).
    destruct o as [x p ys|x y|x y|x y|x|x]; cbn [ConHb.cstart ConHbGraph.g_start start] in *.
    - apply (M_same lg s d t []); [done|intros m; set_solver|done|done|]. destruct (vars s !! x); [done|]. by injection He as <-.
    - destruct (vars s !! x); [done|]. destruct (live s y) as [h|]; [|done]. destruct (add_ref h s) as [s1|] eqn:H1; [|done]. injection He as <-.
      apply M_same with s d; [done|intros m; unfold g_copy, g_inc; set_solver| |intros b|exact (Hk h s1 H1)].
      + change (nxt (co d) ≤ nxt (co (ccopy inc_sync t y h d))). rewrite nxt_copy. lia.
      + change (nid (ccopy inc_sync t y h d) b = nid d b). by rewrite nid_copy.
    - destruct (live s x); [|done]. destruct (live s y) as [h|]; [|done]. destruct (add_ref h s) as [s1|] eqn:H1; [|done]. injection He as <-.
      apply M_same with s d; [done|intros m; unfold g_copy, g_inc; set_solver| |intros b|exact (Hk h s1 H1)].
      + change (nxt (co d) ≤ nxt (co (ccopy inc_sync t y h (all_uses t x d)))). rewrite nxt_copy. simpl. lia.
      + change (nid (ccopy inc_sync t y h (all_uses t x d)) b = nid d b). by rewrite nid_copy.
    - destruct (live s x) as [h|]; [|done]. destruct (live s y); [|done]. destruct (add_ref h s) as [s1|] eqn:H1; [|done].
      set (d2 := all_uses t y (all_uses t x d)). set (d' := if decide (x = y) then _ else _).
      assert (Hn : nxt (co d') = S (nxt (co d))).
      { assert (nxt (co d') = nxt (co (ccopy inc_sync t x h d2))) as -> by (unfold d'; by case_decide). by rewrite nxt_copy. }
      assert (Hd : ∀ b, nid d' b = nid d b).
      { intros b. assert (nid d' b = nid (ccopy inc_sync t x h d2) b) as -> by (unfold d'; by case_decide). by rewrite nid_copy. }
      apply M_same with s d; [done|intros m; unfold g_copy, g_inc; set_solver|lia|done|].
      intros b u Hu. assert (ents s' = ents s1) as Es by (case_decide; by injection He as <-). unfold has_. rewrite Es. by apply (Hk h s1 H1).
    - destruct (live s x) as [h|]; [|done]. injection He as <-. by apply (M_same lg s d t [_]); [done|intros m; set_solver|simpl; lia|..].
    - destruct (live s x) as [h|]; [|done]. destruct (add_ref h s) as [s1|] eqn:H1; [|done]. injection He as <-.
      apply M_same with s d; [done|intros m; unfold g_copy, g_inc; set_solver|rewrite nxt_copy; lia|intros b; by rewrite nid_copy|exact (Hk h s1 H1)].
  Qed.

  Lemma g_walk_quiet s x h path n c m : XEnter m ∉ g_walk s x h path n c.
  Proof.
    revert h n. induction path as [|j path IH]; intros h n; cbn [ConHbGraph.g_walk]; unfold g_inc, g_dec; rewrite elem_of_app; (intros [H|H]; [set_solver|]); [set_solver|].
    destruct (ents s !! h) as [m'|]; [|set_solver]. destruct (p_kids P (n_rep m') !! j); [|set_solver]. by eapply IH.
  Qed.
  Lemma walk_nid s t x path : ∀ h d, nxt (co d) ≤ nxt (co (cwalk s t x h path d)) ∧ ∀ b, nid (cwalk s t x h path d) b = nid d b.
  Proof.
    induction path as [|j path IH]; intros h d; cbn [ConHb.cwalk]; set (d' := done_ t x _).
    all: assert (nxt (co d') = S (S (S (nxt (co d)))) ∧ ∀ b, nid d' b = nid d b) as [Hx Hn].
    all: try (unfold d'; split; [rewrite nxt_done; unfold see, on_co; cbn [co emit nxt]; rewrite nxt_done; unfold cdecr; rewrite nxt_crmw, nxt_done; unfold cincr; by rewrite nxt_crmw|];
      intros b; rewrite nid_done; unfold see, on_co, nid; cbn [co emit nd]; fold (nid (done_ t x (cdecr true dec_acq t h (done_ t x (cincr inc_sync t h d)))) b);
      rewrite nid_done; unfold cdecr; rewrite nid_rmw, nid_done; unfold cincr; by rewrite nid_rmw).
    - split; [lia|done].
    - destruct (ents s !! h) as [n|]; [|split; [lia|done]]. destruct (p_kids P (n_rep n) !! j) as [h'|]; [|split; [lia|done]].
      destruct (IH h' d') as [H1 H2]. split; [lia|]. intros b. by rewrite H2.
  Qed.

  Lemma cstep_M lg sd l sd' : G sd → M lg sd.1 sd.2 → cstep sd l = Some sd' → M (lg ++ g_step sd l) sd'.1 sd'.2.
  Proof.
    destruct sd as [s d]. intros [HI [HJ _]] HM. simpl in HI, HJ, HM.
    assert (Hnd : ∀ h, is_Some (ents s !! h) → ∃ n, nid d h = Some n ∧ idn (co d) h = n).
    { intros h Hh%(j_nd _ _ _ _ HJ). destruct Hh as [[j E] Hj]. exists j. unfold nid, idn. by rewrite Hj. }
    destruct l as [l|i|t h|t u|t x path]; cbn [ConHb.cstep ConHbGraph.g_step].
    - destruct (tests s l); [intros [= <-]; by rewrite app_nil_r|]. destruct (step P eqv s l) as [s'| |] eqn:El; [|intros [= <-]; by rewrite app_nil_r|done]. intros [= <-]. cbn [fst snd].
      destruct l as [t o|t thr| |h|]; cbn [clab g_lab]; cbn [step] in El.
      + case_decide; [done|]. destruct (stack s t); [|done]. by apply start_M.
      + destruct (stack s t) as [|i rest] eqn:Hst; [done|]. by eapply exec_M.
      + rewrite app_nil_r. destruct (todo s); [done|]. injection El as <-. by destruct HM.
      + destruct (todo s); [|done]. destruct (stack s gc_tid); [|done]. destruct (ents s !! h) as [[r1 z1 [o1|]]|] eqn:Hn; [done| |done]. injection El as <-.
        destruct (Hnd h) as (n&Hh&->); [by eexists|]. apply (M_enter lg s d gc_tid n _ _ h); [done| |done|done|done| |].
        * apply (free_left lg s d h n); [done|done|]. intros u (m&Hm&Hu). rewrite Hn in Hm. by simplify_eq.
        * eexists. simpl. by rewrite lookup_insert.
        * intros b u (m&Hm&Hu). destruct (decide (b = h)) as [->|Hne]; [by rewrite Hn in Hm; simplify_eq|]. exists m. simpl. by rewrite lookup_insert_ne.
      + rewrite app_nil_r. destruct (todo s); [|done]. destruct (stack s gc_tid); [|done]. case_decide; [|done]. injection El as <-. by destruct HM.
    - destruct (stack s gc_tid) as [|i0 rest] eqn:Est; [intros [= <-]; by rewrite app_nil_r|]. destruct i0; try (intros [= <-]; by rewrite app_nil_r). destruct (ents s !! h) as [n|] eqn:Hn; [|done].
      destruct (load true gc_tid h i d) as [[v d']|] eqn:Hl; intros [= <-]; [|by rewrite app_nil_r]. cbn [fst snd]. unfold load in Hl.
      destruct (hist d h !! i) as [[[e v'] E]|] eqn:Hi; [|done]. destruct (forallb _ _); [|done]. injection Hl as <- <-.
      by apply (M_same lg s d gc_tid [_]); [done|intros m; set_solver|simpl; lia|..].
    - destruct (stack s t) as [|[] ?] eqn:Est; try (intros [= <-]; by rewrite app_nil_r). destruct (ents s !! h) as [[r1 z1 [o1|]]|] eqn:Hn; intros [= <-]; try (by rewrite app_nil_r). cbn [fst snd].
      destruct (Hnd h) as (n&Hh&Hid); [by eexists|]. rewrite Hid. rewrite fmap_cons, cons_middle, app_assoc. set (s' := put h (Node r1 z1 (Some t)) s).
      assert (Hfree : ∀ u, ¬ has_ s h u) by (intros u (m&Hm&Hu); rewrite Hn in Hm; by simplify_eq).
      apply (M_leave _ s' (enter t h d) t h (Node r1 z1 None)).
      + apply (M_enter lg s d t n s' _ h); [done|by apply (free_left lg s d h n)|done|done|done| |].
        * eexists. unfold s'. simpl. by rewrite lookup_insert.
        * intros b u (m&Hm&Hu). destruct (decide (b = h)) as [->|Hne]; [by rewrite Hn in Hm; simplify_eq|]. exists m. unfold s'. simpl. by rewrite lookup_insert_ne.
      + intros m. set_solver.
      + simpl. lia.
      + done.
      + change (idn (co (enter t h d)) h) with (idn (co d) h). rewrite Hid. set_solver.
      + intros u (m&Hm&Hu). unfold s' in Hm. simpl in Hm. rewrite lookup_insert in Hm. injection Hm as <-. simpl in Hu. by injection Hu.
      + unfold s'. simpl. by rewrite insert_insert, insert_id.
    - intros [= <-]. by apply (M_same lg s d u [_]); [done|intros m; set_solver|simpl; lia|..].
    - destruct (stack s t); [|intros [= <-]; by rewrite app_nil_r]. destruct (live s x) as [h|] eqn:Hx; intros [= <-]; [|by rewrite app_nil_r]. cbn [fst snd].
      destruct (walk_nid s t x path h (use t x d)) as [W1 W2].
      apply M_same with s d; [done| |done|done|done]. intros m. rewrite elem_of_cons. intros [H|H]; [done|by eapply g_walk_quiet].
  Qed.
  Lemma init_M ls sd : crun (init, cinit) ls = Some sd → M (g_run (init, cinit) ls) sd.1 sd.2.
  Proof.
    enough (H : ∀ lg sd0, G sd0 → M lg sd0.1 sd0.2 → crun sd0 ls = Some sd → M (lg ++ g_run sd0 ls) sd.1 sd.2).
    { intros Hr. apply (H []) in Hr; [done|by apply cinit_G|]. split; intros; simplify_eq/=. }
    induction ls as [|l ls IH]; intros lg sd0 H0 HM; cbn [ConHb.crun ConHbGraph.g_run]; [intros [= <-]; by rewrite app_nil_r|].
    destruct (cstep_G P eqv good Heq HP inc_sync dec_acq sd0 l H0) as (sd1&E1&H1). rewrite E1. intros Hr. rewrite app_assoc. eapply IH; [done| |done]. by eapply cstep_M.
  Qed.
End Elements.

Section C63.
  Context {K A R V : Type}.
  Context (P : Core.policy K A R V) (eqv : K → K → bool) (good : R → Prop).
  Context (Heq : equivalence eqv) (HP : policy_ok eqv good P).
  Context (inc_sync dec_acq : bool).
  Notation state := (Concurrent.state (K:=K) (A:=A) (R:=R)).
  Notation cstep := (cstep P eqv inc_sync true dec_acq true).
  Notation crun0 ls := (crun P eqv inc_sync true dec_acq true (init, cinit) ls).
  Notation log_of ls := (g_run P eqv inc_sync true dec_acq true (init, cinit) ls).
  Implicit Types (s : state) (d : chb).

  Lemma run_GR ls sd : crun0 ls = Some sd → G P eqv good sd ∧ GR (log_of ls) sd.2.
  Proof. exact (init_GR P eqv good Heq HP inc_sync dec_acq ls sd). Qed.

  (** every access is in the log, once and by its thread; the graph has no cycles *)
  Theorem C63_logged ls sd a : crun0 ls = Some sd → a ∈ tr (co sd.2) →
    (∃ i x, log_of ls !! i = Some (a_tid a, x) ∧ act_ev x = Some (a_ev a)) ∧
    (∀ i j, at_ev (log_of ls) i (a_ev a) → at_ev (log_of ls) j (a_ev a) → i = j) ∧
    (∀ i, ¬ tc (edge (log_of ls)) i i).
  Proof.
    intros H Ha. destruct (run_GR ls sd H) as [_ HG]. split_and!.
    - by apply (g_tr _ _ HG).
    - intros i j. apply (g_one _ _ HG).
    - intros i Hi%tc_lt. lia.
  Qed.

  (** what [ConHb.v] says happens before does so in the graph *)
  Theorem C63_graph ls sd e e' : crun0 ls = Some sd → before (co sd.2) e e' →
    ∃ i j, at_ev (log_of ls) i e ∧ at_ev (log_of ls) j e' ∧ tc (edge (log_of ls)) i j.
  Proof. intros H (E&HE&He). destruct (run_GR ls sd H) as [_ HG]. by apply (g_past _ _ HG e' E e). Qed.

  (** no data races, in terms of the graph *)
  Theorem C63_no_race_graph ls sd a b i j : crun0 ls = Some sd →
    a ∈ tr (co sd.2) → b ∈ tr (co sd.2) → conflict a b → at_ev (log_of ls) i (a_ev a) → at_ev (log_of ls) j (a_ev b) →
    i = j ∨ tc (edge (log_of ls)) i j ∨ tc (edge (log_of ls)) j i.
  Proof.
    intros H Ha Hb Hc Hi Hj. destruct (C63_no_race P eqv good Heq HP inc_sync dec_acq ls) as (sd'&H'&Hr).
    rewrite H in H'. injection H' as <-.
    destruct (C63_logged ls sd a H Ha) as (_&Ua&_). destruct (C63_logged ls sd b H Hb) as (_&Ub&_).
    destruct (decide (a_ev a = a_ev b)) as [He|Hne]; [left; apply Ua; [done|by rewrite He]|right].
    destruct (Hr a b Ha Hb Hc Hne) as [Hx|Hx]; apply (C63_graph ls sd _ _ H) in Hx as (k&l&Hk&Hl&Hkl).
    - left. by rewrite (Ua i k Hi Hk), (Ub j l Hj Hl).
    - right. by rewrite (Ua i l Hi Hl), (Ub j k Hj Hk).
  Qed.

  (** The container gives access to an element to one at a time: before it is
      entered again, the one that has entered it leaves it.  So edges from
      leaving to later entering are those that exclusive access gives. *)
  Theorem C63_elements ls sd i j t u n : crun0 ls = Some sd → i < j →
    log_of ls !! i = Some (t, XEnter n) → log_of ls !! j = Some (u, XEnter n) →
    ∃ k, i < k < j ∧ log_of ls !! k = Some (t, XLeave n).
  Proof.
    intros H Hij Hi Hj. pose proof (init_M P eqv good Heq HP inc_sync dec_acq ls sd H) as HM. by apply (m_ex _ _ _ HM i j t u).
  Qed.

  (** The counter of an element holds what the operations in the log have made
      of it. *)
  Theorem C63_history ls s d h n : crun0 ls = Some (s, d) → ents s !! h = Some n →
    ∃ j E e l, nd (co d) !! h = Some (j, E) ∧ writes (log_of ls) j = (e, n_cnt n) :: l.
  Proof.
    intros H Hn. destruct (run_GR ls _ H) as [(HI&HJ&HH) HG]. simpl in HI, HJ, HH, HG.
    assert (is_Some (nd (co d) !! h)) as [[j E] Hj] by (apply (j_nd _ _ _ _ HJ); by eexists).
    destruct (HH h) as [(e&l&Ht) _ _]; [by eexists|]. pose proof (g_wr _ _ HG h j E Hj) as Hw. unfold cntf in Ht. rewrite Hn in Ht. rewrite Ht in Hw.
    exists j, E, e, (fst <$> l). split; [done|]. by rewrite <-Hw.
  Qed.

  (** A load may return any value coherence allows: one written by [w] such
      that no newer write happens before anything the collector has done. *)
  Theorem C63_coherent ls s d h rest j E i w v : crun0 ls = Some (s, d) → stack s gc_tid = ITest h :: rest →
    nd (co d) !! h = Some (j, E) → writes (log_of ls) j !! i = Some (w, v) →
    (∀ i' w' v' k a, i' < i → writes (log_of ls) j !! i' = Some (w', v') → log_of ls !! k = Some (gc_tid, a) →
       ¬ ∃ k', at_ev (log_of ls) k' w' ∧ rtc (edge (log_of ls)) k' k) →
    ∃ sd', cstep (s, d) (CLoad i) = Some sd' ∧
      log_of (ls ++ [CLoad i]) = log_of ls ++ [(gc_tid, XLoad (nxt (co d)) j w true)] ∧
      stack sd'.1 gc_tid = (if decide (v = 0%Z) then IErase h else ISkip h) :: rest.
  Proof.
    intros H Hst Hj Hw Hco. destruct (run_GR ls _ H) as [(HI&HJ&HH) HG]. simpl in HI, HJ, HH, HG.
    assert (is_Some (ents s !! h)) as [n Hn] by (apply (j_nd _ _ _ _ HJ); by eexists).
    pose proof (g_wr _ _ HG h j E Hj) as Hwr. rewrite <-Hwr in Hw. rewrite list_lookup_fmap in Hw.
    destruct (hist d h !! i) as [[[w0 v0] C]|] eqn:Hi; [|done]. simpl in Hw. injection Hw as -> ->.
    assert (Hid : idn (co d) h = j) by (unfold idn; by rewrite Hj).
    assert (Hf : forallb (λ w, bool_decide (w.1.1 ∉ knows (co d) gc_tid)) (take i (hist d h)) = true).
    { apply forallb_forall. intros [[w' v'] C'] Hin%elem_of_list_In. apply elem_of_list_lookup in Hin as [i' Hi'].
      apply lookup_take_Some in Hi' as [Hi' Hlt]. apply bool_decide_eq_true. intros Hk. simpl in Hk.
      destruct (g_kn _ _ HG gc_tid w' Hk) as (k&a&Hka&Hg). apply (Hco i' w' v' k a); [done| |done|exact Hg].
      by rewrite <-Hwr, list_lookup_fmap, Hi'. }
    assert (Hl : load true gc_tid h i d = Some (v, on_co (λ c, learn gc_tid C (emit gc_tid [(MRef (idn c h), Atomic)] c)) d)) by (unfold load; by rewrite Hi, Hf).
    eexists. split_and!.
    - cbn [ConHb.cstep]. rewrite Hst, Hn, Hl. done.
    - assert (Hg : ∀ ls sd0, crun P eqv inc_sync true dec_acq true sd0 ls = Some (s, d) →
        g_run P eqv inc_sync true dec_acq true sd0 (ls ++ [CLoad i]) = g_run P eqv inc_sync true dec_acq true sd0 ls ++ g_step P eqv inc_sync true dec_acq true (s, d) (CLoad i)).
      { clear. induction ls as [|l ls IH]; intros sd0; cbn [ConHb.crun g_run app].
        - intros [= ->]. destruct (ConHb.cstep _ _ _ _ _ _ _ _); by rewrite ?app_nil_r.
        - destruct (ConHb.cstep _ _ _ _ _ _ sd0 l) as [sd1|]; [|done]. intros Hr. rewrite (IH _ Hr). by rewrite app_assoc. }
      rewrite (Hg ls _ H). cbn [g_step]. by rewrite Hst, Hl, Hi, Hid.
    - simpl. by rewrite stack_set, decide_True.
  Qed.
End C63.

(** ** Computing with the graph *)
Definition edgeb (lg : glog) (i j : nat) : bool :=
  match lg !! i, lg !! j with
  | Some (t, a), Some (u, b) =>
      (t =? u) ||
      match a, b with
      | XLeave n, XEnter n' => n =? n'
      | XRmw _ n _ _ true, XRmw _ n' _ true _ => n =? n'
      | XRmw e n _ _ true, XLoad _ n' w true => (n =? n') && (e <=? w)
      | XGot x, XBegin y | XGot x, XEnd y | XDone x, XEnd y =>
          (x =? y) && forallb (λ k, match lg !! k with Some (_, XGot z) => negb (z =? x) | _ => true end) (seq (S i) (j - S i))
      | _, XHear v => v =? t
      | _, _ => false
      end
  | _, _ => false
  end.
Lemma stillb lg x i j : still lg x i j → forallb (λ k, match lg !! k with Some (_, XGot z) => negb (z =? x) | _ => true end) (seq (S i) (j - S i)) = true.
Proof.
  intros Hs. apply forallb_forall. intros k [Hk1 Hk2]%in_seq. destruct (lg !! k) as [[t []]|] eqn:E; try done.
  apply negb_true_iff, Nat.eqb_neq. intros ->. apply (Hs k); [lia|]. by exists t.
Qed.
Lemma edgeb_complete lg i j : edge lg i j → edgeb lg i j = true.
Proof.
  intros [t a b Hlt Ha Hb|n Hlt [t Ha] [u Hb]|e e' n z z' q r Hlt [t Ha] [u Hb]|e e' n z q w Hlt [t Ha] [u Hb] Hw|x Hlt [t Ha] [u Hb] Hs|x Hlt [[t Ha]|[t Ha]] [u Hb] Hs|t u a Hlt Ha Hb];
    unfold edgeb; rewrite Ha, Hb; rewrite ?stillb, ?Nat.eqb_refl by done; simpl; try done; try (by rewrite orb_true_r).
  - apply Nat.leb_le in Hw. by rewrite Hw, orb_true_r.
  - destruct a as [|? ? ? ? []| | | | | | | |]; by rewrite ?orb_true_r.
Qed.
(** what happens before [j], [j] included: positions are looked at downwards *)
Definition ancestors (lg : glog) (j : nat) : list nat :=
  foldl (λ S k, if existsb (edgeb lg k) S then k :: S else S) [j] (reverse (seq 0 j)).
Lemma ancestors_complete lg j i : tc (edge lg) i j → i ∈ ancestors lg j.
Proof.
  intros H. pose proof (tc_lt _ _ _ H) as Hlt.
  assert (Gm : ∀ n S, n ≤ j → (∀ i, rtc (edge lg) i j → n ≤ i → i ∈ S) →
    ∀ i, rtc (edge lg) i j → i ∈ foldl (λ S k, if existsb (edgeb lg k) S then k :: S else S) S (reverse (seq 0 n))).
  { clear i H Hlt. induction n as [|n IH]; intros S Hn HS i Hi; [apply HS; [done|lia]|].
    rewrite seq_S, reverse_app. simpl. apply IH; [lia| |done]. intros k Hk Hkn. destruct (decide (n < k)) as [Hlt|Hge].
    - assert (k ∈ S) by (apply HS; [done|lia]). destruct (existsb _ _); [by right|done].
    - assert (k = n) as -> by lia. apply rtc_inv in Hk as [->|(m&Hm&Hmj)]; [lia|].
      assert (existsb (edgeb lg n) S = true) as ->; [|by left]. apply existsb_exists. exists m. split; [|by apply edgeb_complete].
      apply elem_of_list_In, HS; [done|]. apply edge_lt in Hm. lia. }
  apply (Gm j); [done| |by apply tc_rtc]. intros k Hk Hkj. apply rtc_inv in Hk as [->|(m&Hm&Hmj)]; [by left|]. exfalso.
  apply edge_lt in Hm. assert (∀ a b, rtc (edge lg) a b → a ≤ b) as Hle by (induction 1 as [|??? He%edge_lt]; lia). apply Hle in Hmj. lia.
Qed.

Definition position (lg : glog) (e : nat) : option nat := fst <$> list_find (λ x, act_ev x.2 = Some e) lg.
Lemma position_spec lg e k : position lg e = Some k → at_ev lg k e.
Proof.
  unfold position. intros H. apply fmap_Some in H as ([k' [t a]]&H&->). apply list_find_Some in H as (H&Ha&_). by exists t, a.
Qed.
Definition apart (lg : glog) (p : CoreHb.acc * CoreHb.acc) : bool :=
  match position lg (a_ev p.1), position lg (a_ev p.2) with
  | Some k, Some l => negb (k =? l) && bool_decide (k ∉ ancestors lg l) && bool_decide (l ∉ ancestors lg k)
  | _, _ => false
  end.
Definition races_g (lg : glog) (c : hb) : list (CoreHb.acc * CoreHb.acc) := List.filter (apart lg) (conflicts c).
(** a race in terms of the graph *)
Definition race_g (lg : glog) (c : hb) : Prop := ∃ a b k l, a ∈ tr c ∧ b ∈ tr c ∧ conflict a b ∧
  at_ev lg k (a_ev a) ∧ at_ev lg l (a_ev b) ∧ k ≠ l ∧ ¬ tc (edge lg) k l ∧ ¬ tc (edge lg) l k.
Lemma races_g_spec lg c : races_g lg c ≠ [] → race_g lg c.
Proof.
  unfold races_g. intros H. destruct (List.filter _ _) as [|[a b] r] eqn:E; [done|].
  assert (Hin : In (a, b) (List.filter (apart lg) (conflicts c))) by (rewrite E; by left).
  apply filter_In in Hin as [Hin Hu]. apply elem_of_list_In, elem_of_list_filter in Hin as [(Hc&_) Hp]. simpl in *.
  unfold pairs in Hp. apply elem_of_list_bind in Hp as (a'&Hp&Ha). apply elem_of_list_bind in Hp as (b'&Hp&Hb).
  apply elem_of_list_singleton in Hp as [= <- <-].
  unfold apart in Hu. simpl in Hu. destruct (position lg (a_ev a)) as [k|] eqn:Hk; [|done]. destruct (position lg (a_ev b)) as [l|] eqn:Hl; [|done].
  apply andb_prop in Hu as [Hu H2]. apply andb_prop in Hu as [H0 H1]. apply bool_decide_eq_true in H1, H2. apply negb_true_iff, Nat.eqb_neq in H0.
  exists a, b, k, l. split_and!; [done|done|done|by apply position_spec|by apply position_spec|done|..]; intros Hx; by apply ancestors_complete in Hx.
Qed.

Definition glast i r a l ls : glog := g_run iP ieq i r a l (init, cinit) ls.
Definition count_act (f : act → bool) (lg : glog) : nat := length (List.filter (λ x, f x.2) lg).
Definition is_load (a : act) : bool := match a with XLoad _ _ _ _ => true | _ => false end.
Definition is_rmw (a : act) : bool := match a with XRmw _ _ _ _ _ => true | _ => false end.
Definition is_enter (a : act) : bool := match a with XEnter _ => true | _ => false end.
Definition is_leave (a : act) : bool := match a with XLeave _ => true | _ => false end.
Example C63_family_graph : let ls := cfamily ++ cfuneral ++ cpass 4 0 ++ cpass 4 0 in let lg := glast false true false true ls in
  (length lg, count_act is_load lg, count_act is_rmw lg, count_act is_enter lg, count_act is_leave lg) = (101, 8, 22, 13, 9) ∧
  races_g lg (co (cfinal false true false true ls).2) = [].
Proof. vm_compute. split; reflexivity. Qed.
(** the state of C63_history and C63_coherent: the writes to the counter of
    the composite; the collector, which has access to it, may get any of the
    values it had since it was visited, and not the first one *)
Definition unseen (lg : glog) (w : nat) : bool :=
  match position lg w with
  | Some k => forallb (λ j, match lg !! j with Some (t, _) => negb (t =? gc_tid) || bool_decide (k ∉ ancestors lg j) | None => true end) (seq 0 (length lg))
  | None => false
  end.
Example C63_coherent_ex : let ls := testing in let lg := glast false true false true ls in let sd := cfinal false true false true ls in
  (fst <$> nd (co sd.2) !! 2, n_cnt <$> ents sd.1 !! 2, stack sd.1 gc_tid) = (Some 10, Some 0%Z, [ITest 2]) ∧
  writes lg 10 = zip [31; 30; 24; 23; 21; 20; 15; 14; 13; 12; 10] [0; 1; 2; 3; 2; 3; 2; 3; 2; 1; 0]%Z ∧
  map (λ w, unseen lg w.1) (writes lg 10) = replicate 9 true ++ [false; false] ∧
  map (λ i, fst <$> load true gc_tid 2 i sd.2) (seq 0 11) = (Some <$> [0; 1; 2; 3; 2; 3; 2; 3; 2; 1]%Z) ++ [None] ∧
  drop 82 (glast false true false true (ls ++ [CLoad 1])) = [(gc_tid, XLoad 35 10 30 true)].
Proof. vm_compute. split_and!; reflexivity. Qed.
(** The refuted theorems of [PropConHb.v], in terms of the graph. *)
Theorem C63_release_graph_refuted i a l : ∃ ls sd, ConHb.crun iP ieq i false a l (init, cinit) ls = Some sd ∧
  race_g (g_run iP ieq i false a l (init, cinit) ls) (co sd.2).
Proof.
  exists bury, (cfinal i false a l bury). split; [|apply races_g_spec].
  - unfold cfinal. assert (cdone i false a l bury = true) as H by (destruct i, a, l; vm_compute; reflexivity).
    unfold cdone in H. by destruct (ConHb.crun _ _ _ _ _ _ _ _).
  - destruct i, a, l; vm_compute; by intros [=].
Qed.
Theorem C63_acquire_graph_refuted i r a : ∃ ls sd, ConHb.crun iP ieq i r a false (init, cinit) ls = Some sd ∧
  race_g (g_run iP ieq i r a false (init, cinit) ls) (co sd.2).
Proof.
  exists bury, (cfinal i r a false bury). split; [|apply races_g_spec].
  - unfold cfinal. assert (cdone i r a false bury = true) as H by (destruct i, r, a; vm_compute; reflexivity).
    unfold cdone in H. by destruct (ConHb.crun _ _ _ _ _ _ _ _).
  - destruct i, r, a; vm_compute; by intros [=].
Qed.

Print Assumptions C63_logged.
Print Assumptions C63_graph.
Print Assumptions C63_no_race_graph.
Print Assumptions C63_elements.
Print Assumptions C63_history.
Print Assumptions C63_coherent.
Print Assumptions C63_release_graph_refuted.
Print Assumptions C63_acquire_graph_refuted.
