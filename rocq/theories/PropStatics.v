(** C39, C40, C51: static data from program start to program exit. *)
From Verif Require Import StaticsSpec StaticsProofs.

Section props.
  Context (core : nat → nat) (tracked : nat → bool) (kids : nat → list nat).
  Notation step := (step core tracked kids).
  Notation run := (run core tracked kids).
  Notation reachable := (reachable core tracked kids).
  Notation needs := (needs core tracked kids).

  Lemma run_not_stuck ls : ∀ s, run s ls ≠ Stuck.
  Proof. induction ls as [|l ls IH]; intros s; simpl; [done|]. by destruct (step s l). Qed.
  Lemma run_app s ls s' ls' : run s ls = Next s' → run s (ls ++ ls') = run s' ls'.
  Proof. revert s. induction ls as [|l ls IH]; intros s Hr; simpl in *; [by simplify_eq|]. destruct (step s l); [by apply IH|by apply IH|done]. Qed.

  (** after exit has begun there are only destructions *)
  Definition XInv (s : state) : Prop := exiting s = true → Forall (λ x, ∃ f, x = ORelease f) (todo s).
  Lemma exit_step s l s' : SInv s → XInv s → exiting s = true → step s l = Next s' →
    exiting s' = true ∧ XInv s' ∧ (∀ d, d ∈ stack s' → d ∈ stack s).
  Proof.
    intros HS Hx He H. specialize (Hx He). destruct l as [x| | |]; simpl in H; rewrite ?He in H; [done| | |].
    - destruct (todo s) as [|x k] eqn:Et; [done|]. inversion Hx as [|? ? [f ->] Hk]; subst. simpl in H.
      assert (HS0 : SInv (set_todo k s)) by (by eapply sinv_eq).
      destruct (tracked (core f)) eqn:Et'; simpl in H; [|simplify_eq; split_and!; [done|by intros _|done]].
      destruct (ready (set_todo k s) (core f)) eqn:Er; simpl in H; [|done]. destruct (ents s !! f) as [[n ks]|]; [|done].
      rewrite (sinv_ready _ _ HS0) in Er. apply bool_decide_eq_true_1 in Er.
      case_decide; simplify_eq; [|split_and!; [done|by intros _|done]]. rewrite init_id by (try done; by rewrite Er). simpl. split_and!; [done| |done].
      intros _. simpl. apply Forall_app. split; [apply Forall_release|done].
    - by repeat case_match.
    - destruct (todo s) as [|x k] eqn:Et; [|done]. unfold pop in H. destruct (stack s) as [|[c|o] k]; [done| |].
      + simplify_eq. split_and!; [done| |by right]. intros _. apply Forall_release.
      + case_match; simplify_eq. split_and!; [done| |by right]. intros _. apply Forall_release.
  Qed.
  Lemma noexit_step s l s' : SInv s → exiting s = false → step s l = Next s' → XInv s' ∧ ∀ d, d ∈ stack s → d ∈ stack s'.
  Proof.
    intros HS He H. assert (Hi : ∀ k c d, let s0 := set_todo k s in exiting (init c s0) = false ∧ (d ∈ stack s → d ∈ stack (init c s0))).
    { intros k c d s0. assert (SInv s0) as H0 by (by eapply sinv_eq). destruct (init_rest c s0 H0) as (_&_&_&E&[[E' _]|(_&E'&_)]); rewrite E, E'; (split; [done|]); [done|by right]. }
    destruct l as [x| | |]; simpl in H; rewrite ?He in H.
    - case_match; simplify_eq. split; [intros ?; simpl in *; congruence|done].
    - destruct (todo s) as [|x k]; [done|]. specialize (Hi k). unfold Statics.exec in H. cbv zeta in Hi.
      destruct x as [c|c|f o|o f|o f|o|f o|f]; [specialize (Hi c)|specialize (Hi c)|clear Hi|clear Hi|clear Hi|clear Hi|specialize (Hi (core f))|specialize (Hi (core f))];
        repeat case_match; simplify_eq; (split; [intros Hx; simpl in Hx|simpl]); try congruence; try done; try (by intros; apply Hi); try (destruct (Hi (DObj 0)); congruence).
      intros d. by right.
    - case_match; simplify_eq. split; [intros _; constructor|done].
    - by case_match.
  Qed.
  Lemma step_xinv s l s' : SInv s → XInv s → step s l = Next s' → XInv s'.
  Proof. intros HS Hx H. destruct (exiting s) eqn:He; [by eapply exit_step|by eapply noexit_step]. Qed.
  Lemma exit_stack s l s' : SInv s → XInv s → exiting s = true → step s l = Next s' → exiting s' = true ∧ ∀ d, d ∈ stack s' → d ∈ stack s.
  Proof. intros HS Hx He H. by destruct (exit_step s l s' HS Hx He H) as (?&_&?). Qed.
  Lemma noexit_stack s l s' d : SInv s → exiting s = false → step s l = Next s' → d ∈ stack s → d ∈ stack s'.
  Proof. intros HS He H. by apply (noexit_step s l s' HS He H). Qed.
  Lemma reach_xinv s : reachable s → XInv s.
  Proof.
    intros [ls Hr]. assert (∀ ls s0, SInv s0 → XInv s0 → run s0 ls = Next s → XInv s) as H; [|by eapply (H ls start); [apply start_sinv| |]].
    clear. intros ls. induction ls as [|l ls IH]; intros s0 HS Hx Hr; simpl in Hr; [by simplify_eq|].
    destruct (step s0 l) as [s1| |] eqn:Es; [|by eapply IH|done]. eapply (IH s1); [by eapply step_sinv|by eapply step_xinv|done].
  Qed.

  (** ** C39 *)

  (** in every order of initializations and operations, up to exit: no
      operation meets a factory or mutex that is not there, held flyweights
      have theirs, and so has any class after init() *)
  Theorem C39_ready ls : acyclic kids → LExit ∉ ls → ∃ s, run start ls = Next s ∧
    (∀ o f, (o, f) ∈ owns s → ptr s (core f) = true ∧ hold s (core f) = Alive ∧ is_Some (ents s !! f)) ∧
    ∀ c, ptr (init c s) c = true ∧ hold (init c s) c = Alive.
  Proof.
    intros [rank Hrank] Hx. pose proof (run_inv_noexit core tracked kids rank Hrank ls start (start_inv core tracked kids false) Hx) as HI.
    pose proof (run_not_stuck ls start) as Hns. destruct (run start ls) as [s| |]; [|done|done]. exists s. simpl in HI. assert (exiting s = false) as He.
    { destruct (exiting s) eqn:E; [|done]. by destruct (v_exit _ _ _ _ _ HI E). }
    assert (Hp : ∀ s c, SInv s → hold s c = Alive → ptr s c = true).
    { intros s' c HS Ha. rewrite (s_ptr _ HS), (s_flag _ HS). apply bool_decide_eq_true_2. by rewrite Ha. }
    split_and!; [done| |].
    - intros o f Hof. destruct (v_own _ _ _ _ _ HI o f Hof) as [[n ks] Hf]. destruct (v_ent _ _ _ _ _ HI f n ks Hf) as (_&Ha&_).
      split_and!; [apply Hp; [apply HI|done]|done|by eexists].
    - intros c. pose proof (init_alive _ _ _ _ c s HI He) as Ha. split; [|done]. apply Hp; [|done]. apply init_sinv, HI.
  Qed.

  (** holders are constructed at most once, also during exit; a class is
      constructed as soon as its init() is called *)
  Theorem C39_once s c : reachable s → made s c ≤ 1 ∧ (made s c = 0 ↔ hold s c = Raw) ∧ hold (init c s) c ≠ Raw ∧
    (∀ c', c' ≠ c → hold (init c s) c' = hold s c' ∧ made (init c s) c' = made s c').
  Proof.
    intros HS%reach_sinv. split_and!.
    - rewrite (s_made _ HS). case_decide; lia.
    - rewrite (s_made _ HS). case_decide; done.
    - by apply init_hold.
    - intros c' Hne. destruct (decide (hold s c = Raw)); [|by rewrite init_id]. rewrite init_new by done. unfold get. rewrite decide_True by done. simpl.
      by rewrite !upd_ne.
  Qed.
  Theorem C39_idempotent s c : reachable s → init c (init c s) = init c s ∧ flag (init c s) c = true ∧ (made s c = 1 → init c s = s).
  Proof.
    intros HS%reach_sinv. split_and!.
    - apply init_id; [by apply init_sinv|by apply init_hold].
    - rewrite (s_flag _ (init_sinv c s HS)). apply bool_decide_eq_true_2, init_hold, HS.
    - intros Hm. apply init_id; [done|]. rewrite (s_made _ HS) in Hm. by case_decide.
  Qed.
  (** the dynamic initialization of static_initializer has no further effect *)
  Theorem C39_static_initializer s c k s' : reachable s → todo s = OStatic c :: k → step s LStep = Next s' →
    ∀ c', hold s' c' = hold (init c s) c' ∧ flag s' c' = flag (init c s) c' ∧ stack s' = stack (init c s) ∧ made s' c' = made (init c s) c'.
  Proof.
    intros HS%reach_sinv Ht H c'. simpl in H. rewrite Ht in H. simpl in H. injection H as <-. simpl.
    assert (HS0 : SInv (set_todo k s)) by (by eapply sinv_eq). unfold upd. destruct (decide (hold s c = Raw)) as [Hr|Hr].
    - rewrite !init_new by done. unfold get. simpl. destruct (decide (hold s c = Raw)); [|done]. simpl. split_and!; try done. case_decide; subst; [|done]. done.
    - rewrite !init_id by done. simpl. split_and!; try done. by case_decide; subst.
  Qed.

  (** ** C40 *)

  (** a static object whose construction is completed when the holder of class
      [c] exists is destroyed before that holder: while it is registered for
      destruction the holder is alive, whatever happens *)
  Theorem C40_order s o k c s1 ls s' : reachable s → todo s = OReg o :: k → hold s c = Alive → step s LStep = Next s1 →
    run s1 ls = Next s' → DObj o ∈ stack s' → hold s' c = Alive.
  Proof.
    intros Hr Ht Hc H1 Hrun Hin. pose proof (reach_sinv _ _ _ _ Hr) as HS. pose proof (step_sinv _ _ _ _ _ _ HS H1) as HS1.
    assert (before (DObj o) (DHolder c) (stack s1)) as Hb.
    { simpl in H1. rewrite Ht in H1. simpl in H1. case_bool_decide; simplify_eq. simpl. apply before_top. by apply (s_hold _ HS). }
    assert (Hx1 : XInv s1). { eapply step_xinv; [exact HS|by apply reach_xinv|exact H1]. }
    clear Hr Ht Hc H1 HS. assert (DObj o ∈ stack s1 ∧ before (DObj o) (DHolder c) (stack s1) ∨ exiting s1 = true ∧ DObj o ∉ stack s1) as HP.
    { left. split; [apply (before_in _ _ _ Hb)|done]. }
    clear Hb. revert s1 HS1 Hx1 HP Hrun. induction ls as [|l ls IH]; intros s1 HS Hx HP Hrun; simpl in Hrun.
    - simplify_eq. destruct HP as [[_ Hb]|[_ ?]]; [|done]. apply (s_hold _ HS), (before_in _ _ _ Hb).
    - destruct (step s1 l) as [s2| |] eqn:Es; [|by eapply IH|done]. apply (IH s2); [by eapply step_sinv|by eapply step_xinv| |done].
      destruct (decide (DObj o ∈ stack s2)) as [Hi|Hi].
      + destruct HP as [[_ Hb]|[He Hn]]; [left; split; [done|by eapply step_before]|]. destruct (exit_stack s1 l s2 HS Hx He Es) as [_ Hsub]. by apply Hsub in Hi.
      + right. split; [|done]. destruct HP as [[Hi1 _]|[He Hn]]; [|by apply (exit_stack s1 l s2)]. destruct (exiting s1) eqn:He; [by apply (exit_stack s1 l s2)|].
        destruct Hi. by apply (noexit_stack s1 l s2).
  Qed.

  (** exit is safe for every program that respects [allowed] *)
  Theorem C40_safe_exit ls : acyclic kids → guarded core tracked kids start ls → ∃ s, run start ls = Next s.
  Proof.
    intros [rank Hrank] Hg. pose proof (run_inv core tracked kids rank Hrank ls start (start_inv core tracked kids true) Hg) as HI.
    pose proof (run_not_stuck ls start). destruct (run start ls); [eauto|done|done].
  Qed.

  (** ... and in any case for one which starts with initializers of all
      classes, inner ones first as far as no_tracking is involved *)
  Section first.
    Context (cs : list nat) (Hall : ∀ f, core f ∈ cs).
    Context (Hinner : ∀ f g c, tracked (core f) = false → g ∈ kids f → needs g c → ∃ k1 k2, cs = k1 ++ core f :: k2 ∧ c ∈ k1).
    Definition base : list dtor := DHolder <$> reverse cs.
    Lemma binv_allowed s ls : SInv s → XInv s → (exiting s = false → ∃ k, stack s = k ++ base) → no_leak core tracked kids s ls = true → guarded core tracked kids s ls.
    Proof.
      revert s. induction ls as [|l ls IH]; intros s HS Hx HB Hl; simpl in *; [done|]. apply andb_true_iff in Hl as [He Hl]. split.
      - destruct l as [x| | |]; simpl; [done| | |done].
        2: { intros o f Hof. rewrite forallb_forall in He. apply elem_of_list_In, He in Hof. by apply bool_decide_eq_true_1 in Hof. } destruct (todo s) as [|[] k] eqn:Et; try done.
        assert (exiting s = false) as Hex. { destruct (exiting s) eqn:E; [|done]. specialize (Hx E). rewrite Et in Hx. inversion Hx as [|? ? [? Hq]]. done. }
        destruct (HB Hex) as [k0 Hk0].
        assert (Hraw : ∀ c, c ∈ cs → hold s c = Alive).
        { intros c Hc. apply (s_hold _ HS). rewrite Hk0. apply elem_of_app. right. apply elem_of_list_fmap. exists c. split; [done|by apply elem_of_reverse]. }
        split.
        + intros Ho c Hc. rewrite Hk0 in *. apply elem_of_app in Ho as [Ho|Ho].
          * apply elem_of_list_split in Ho as (k1&k2&->). exists k1, (k2 ++ base). rewrite <- app_assoc. split; [done|]. apply elem_of_app. right.
            apply elem_of_list_fmap. exists c. split; [done|]. apply elem_of_reverse. destruct Hc as [->|(g&_&<-&_)]; apply Hall.
          * apply elem_of_list_fmap in Ho as (?&[=]&_).
        + intros Htr g c Hg Hc. rewrite init_id; [|done|]; [|rewrite Hraw; [done|apply Hall]].
          destruct (Hinner f g c Htr Hg Hc) as (k1&k2&E&Hin). rewrite Hk0. unfold base. rewrite E, reverse_app, reverse_cons, !fmap_app. simpl.
          exists (k0 ++ (DHolder <$> reverse k2)), (DHolder <$> reverse k1). split; [by rewrite <- !app_assoc|].
          apply elem_of_list_fmap. exists c. split; [done|by apply elem_of_reverse].
      - destruct (step s l) as [s1| |] eqn:Es; [|by apply IH|done]. apply IH; [by eapply step_sinv|by eapply step_xinv| |done].
        intros He1. assert (exiting s = false) as He0. { destruct (exiting s) eqn:E; [|done]. destruct (exit_stack s l s1 HS Hx E Es). congruence. }
        destruct (HB He0) as [k0 Hk0]. clear IH Hl.
        assert (stack s1 = stack s ∨ ∃ x, stack s1 = x :: stack s) as [->|[x ->]]; [|by exists k0|by exists (x :: k0); simpl; f_equal].
        assert (Hi : ∀ k c, let s0 := set_todo k s in stack (init c s0) = stack s ∨ ∃ x, stack (init c s0) = x :: stack s).
        { intros k c s0. assert (SInv s0) as H0 by (by eapply sinv_eq). destruct (init_rest c s0 H0) as (_&_&_&_&[[E _]|(_&E&_)]); rewrite E; eauto. }
        destruct l as [x| | |]; simpl in Es; rewrite ?He0 in Es; [case_match; simplify_eq; auto| |case_match; simplify_eq; auto|by case_match].
        destruct (todo s) as [|x k]; [done|]. specialize (Hi k). unfold Statics.exec in Es.
        destruct x as [c|c|f o|o f|o f|o|f o|f]; [specialize (Hi c)|specialize (Hi c)|clear Hi|clear Hi|clear Hi|clear Hi|specialize (Hi (core f))|specialize (Hi (core f))]; try cbv zeta in Hi;
          repeat case_match; simplify_eq; simpl in *; try (by left); try (by right; eexists); try done.
    Qed.
  End first.
  Lemma init_run l : ∀ s, SInv s → exiting s = false → todo s = [] → (∀ c, c ∈ l → hold s c = Raw) → NoDup l →
    ∃ s', run s (initializers l) = Next s' ∧ stack s' = (DHolder <$> reverse l) ++ stack s ∧ exiting s' = false ∧ owns s' = owns s ∧ SInv s'.
  Proof.
    induction l as [|c l IH]; intros s HS He Ht Hraw Hnd; simpl; [by eexists|]. rewrite He. simpl.
    assert (SInv (set_todo (todo s) s)) as HS0 by (by eapply sinv_eq). assert (Hr : hold s c = Raw) by (apply Hraw; left). apply NoDup_cons in Hnd as [Hnc Hnd].
    pose proof (init_rest c _ HS0) as (E1&E2&E3&E4&E5). destruct E5 as [[_ E5]|(_&E5&E6)].
    { exfalso. apply (init_hold c _ HS0). rewrite E5. done. }
    destruct (IH (init c (set_todo (todo s) s))) as (s'&H1&H2&H3&H4&H5); [by apply init_sinv|by rewrite E4|by rewrite E3| |done|].
    { intros c' Hc'. rewrite E6. rewrite upd_ne by set_solver. apply Hraw. by right. }
    exists s'. split_and!; [done| |done|by rewrite H4, E2|done]. rewrite H2, E5, reverse_cons, fmap_app. simpl. by rewrite <- app_assoc.
  Qed.
  Lemma guarded_app s ls s1 ls' : (∀ l, l ∈ ls → l = LStep ∨ ∃ c, l = LOp (OInit c)) → Forall (λ x, ∃ c, x = OInit c) (todo s) → SInv s →
    run s ls = Next s1 → guarded core tracked kids s1 ls' → guarded core tracked kids s (ls ++ ls').
  Proof.
    revert s. induction ls as [|l ls IH]; intros s Hl Ht HS Hr Hg; simpl in *; [by simplify_eq|]. split.
    - destruct (Hl l) as [->|[c ->]]; [left| |done]. simpl. destruct Ht as [|? ? [c ->]]; done.
    - destruct (step s l) as [s2| |] eqn:Es; [|eapply IH; [|done|done|done|done]; intros; apply Hl; by right|done].
      eapply IH; [intros; apply Hl; by right| |by eapply step_sinv|done|done].
      destruct (Hl l) as [->|[c ->]]; [left| |].
      + simpl in Es. destruct (todo s) as [|x k] eqn:Et; [done|]. inversion Ht as [|? ? [c ->] Hk]; subst. simpl in Es. simplify_eq.
        assert (SInv (set_todo k s)) as H0 by (by eapply sinv_eq). destruct (init_rest c _ H0) as (_&_&->&_). done.
      + simpl in Es. destruct (exiting s); simplify_eq. simpl. constructor; [by eexists|done].
  Qed.

  Lemma initializers_guarded cs ls : NoDup cs → (∀ f, core f ∈ cs) →
    (∀ f g c, tracked (core f) = false → g ∈ kids f → needs g c → ∃ k1 k2, cs = k1 ++ core f :: k2 ∧ c ∈ k1) →
    no_leak core tracked kids start (initializers cs ++ ls) = true → guarded core tracked kids start (initializers cs ++ ls).
  Proof.
    intros Hnd Hall Hinner Hl. destruct (init_run cs start start_sinv eq_refl eq_refl) as (s1&H1&H2&H3&H4&H5); [done|done|].
    eapply guarded_app; [|constructor|apply start_sinv|exact H1|].
    - intros l Hin. unfold initializers in Hin. apply elem_of_list_bind in Hin as (c&Hin&_). set_solver.
    - eapply binv_allowed; [exact Hall|exact Hinner|done|by intros ?; congruence| |].
      + intros _. exists []. by rewrite H2, app_nil_r.
      + assert (∀ l s s', run s l = Next s' → no_leak core tracked kids s (l ++ ls) = true → no_leak core tracked kids s' ls = true) as Happ; [|by eapply Happ].
        clear. intros l. induction l as [|x l IH]; intros s s' Hr Hn; simpl in *; [by simplify_eq|]. apply andb_true_iff in Hn as [_ Hn]. destruct (step s x); [by eapply IH|by eapply IH|done].
  Qed.
  Theorem C40_initializers_first cs ls : acyclic kids → NoDup cs → (∀ f, core f ∈ cs) →
    (∀ f g c, tracked (core f) = false → g ∈ kids f → needs g c → ∃ k1 k2, cs = k1 ++ core f :: k2 ∧ c ∈ k1) →
    no_leak core tracked kids start (initializers cs ++ ls) = true → ∃ s, run start (initializers cs ++ ls) = Next s.
  Proof. intros Hac Hnd Hall Hinner Hl. apply C40_safe_exit; [done|]. by apply initializers_guarded. Qed.
End props.

(** ** what goes wrong otherwise.  Class 0: flyweights 0..9; class 1:
    flyweights 10.., each holding one of class 0; or 2 nested in 1, both of class 0 *)
Definition kcore (f : nat) : nat := f / 10.
Definition all_tracked (c : nat) : bool := true.
Definition outer_untracked (c : nat) : bool := bool_decide (c = 0).
Definition knone (f : nat) : list nat := [].
Definition knest (f : nat) : list nat := if decide (10 ≤ f) then [f mod 10] else if decide (f = 2) then [1] else [].
Lemma knest_acyclic : acyclic knest.
Proof.
  exists id. intros f g. unfold knest, id. case_decide; [|case_decide].
  - intros ->%elem_of_list_singleton. pose proof (Nat.mod_upper_bound f 10). lia.
  - intros ->%elem_of_list_singleton. lia.
  - by intros ?%elem_of_nil.
Qed.

(** a static container [1] filled after its construction (technical.html) *)
Definition late : list label := whole (OReg 1) 1 ++ whole (OMake 7 1) 2 ++ [LExit; LPop; LPop].
Theorem C40_late_container_refuted : ∃ ls, LOp (OReg 1) ∈ ls ∧ no_leak kcore all_tracked knone start ls = true ∧ run kcore all_tracked knone start ls = Undef.
Proof.
  exists late. split_and!; [left|by vm_compute|by vm_compute].
Qed.
(** an initializer before it repairs that *)
Example C40_late_container_initializer : match run kcore all_tracked knone start (initializers [0] ++ late ++ [LStep; LPop]) with
  | Next s => stack s = [] ∧ todo s = [] ∧ owns s = [] ∧ hold s 0 = Dead ∧ made s 0 = 1 ∧ map_to_list (ents s) = [] | _ => False end.
Proof. vm_compute. split_and!; reflexivity. Qed.

(** ** C51: values that hold flyweights *)

(** an initializer of the class of the flyweights in the container is not
    enough: their values hold flyweights of a class initialized later *)
Theorem C51_outer_initializer_refuted : ∃ ls, acyclic knest ∧ no_leak kcore all_tracked knest start (initializers [1] ++ ls) = true ∧
  run kcore all_tracked knest start (initializers [1] ++ ls) = Undef.
Proof.
  exists (whole (OReg 1) 1 ++ whole (OMake 17 1) 4 ++ [LExit; LPop; LPop; LStep; LStep]). split_and!; [apply knest_acyclic|by vm_compute|by vm_compute].
Qed.
(** with no_tracking the values of a class stay in its factory until its
    destruction; if the class nested in them was initialized later, that one is
    gone by then.  No static objects are involved; the order is that of the
    dynamic initializations of static_initializer, which is unspecified *)
Definition outer_then_inner : list label := whole (OStatic 1) 1 ++ whole (OStatic 0) 1 ++ whole (OMake 17 5) 4 ++ whole (ODrop 5 17) 2 ++ [LExit; LPop; LPop; LStep].
Theorem C51_no_tracking_refuted : ∃ ls, acyclic knest ∧ no_leak kcore outer_untracked knest start ls = true ∧ run kcore outer_untracked knest start ls = Undef.
Proof.
  exists outer_then_inner. split_and!; [apply knest_acyclic|by vm_compute|by vm_compute].
Qed.
Example C51_inner_then_outer : match run kcore outer_untracked knest start (whole (OStatic 0) 1 ++ outer_then_inner ++ [LPop]) with
  | Next s => stack s = [] ∧ todo s = [] ∧ owns s = [] ∧ map_to_list (ents s) = [] | _ => False end.
Proof. vm_compute. split_and!; reflexivity. Qed.
(** a flyweight that is never destroyed (leaked) and nests one of its own
    class: the destruction of the factory re-enters the factory and its
    destroyed mutex *)
Theorem C51_leak_refuted : ∃ ls, acyclic knest ∧ run kcore all_tracked knest start ls = Undef ∧ ∀ o, LOp (OReg o) ∉ ls.
Proof.
  exists (whole (OMake 2 5) 4 ++ [LExit; LPop; LStep]). split_and!; [apply knest_acyclic|by vm_compute|]. intros o. cbn. set_solver.
Qed.
(** everything is fine with initializers of all classes, inner ones first
    ([C40_initializers_first]); hypotheses for these classes *)
Definition core2 (f : nat) : nat := if decide (10 ≤ f) then 1 else 0.
Example C51_hypotheses : acyclic knest ∧ NoDup [0; 1] ∧ (∀ f, core2 f ∈ [0; 1]) ∧
  ∀ f g c, outer_untracked (core2 f) = false → g ∈ knest f → needs core2 outer_untracked knest g c → ∃ k1 k2, [0; 1] = k1 ++ core2 f :: k2 ∧ c ∈ k1.
Proof.
  split_and!; [apply knest_acyclic| | |].
  - apply NoDup_cons. split; [set_solver|]. apply NoDup_singleton.
  - intros f. unfold core2. case_decide; set_solver.
  - intros f g c Hf Hg (h&_&_&Hc). apply bool_decide_eq_true_1 in Hc as ->. unfold core2 in *. case_decide; [|done]. exists [0], []. split; [done|set_solver].
Qed.
Example C51_inner_first : let ls := initializers [0; 1] ++ whole (OReg 1) 1 ++ whole (OMake 17 1) 4 ++ whole (OMake 2 1) 4 ++ whole (OMake 17 1) 6 ++ [LExit; LPop; LStep; LStep; LStep; LStep; LPop; LStep; LPop] in
  no_leak core2 outer_untracked knest start ls = true ∧
  match run core2 outer_untracked knest start ls with Next s => stack s = [] ∧ todo s = [] ∧ owns s = [] ∧ map_to_list (ents s) = [] | _ => False end.
Proof. vm_compute. split_and!; reflexivity. Qed.
(** C40_order: object 1 is constructed with a flyweight *)
Example C40_constructed : match run kcore all_tracked knest start (whole (OMake 17 1) 4 ++ whole (OReg 1) 0) with
  | Next s => todo s = [OReg 1] ∧ hold s 0 = Alive ∧ hold s 1 = Alive ∧ stack s = [DHolder 1; DHolder 0] ∧ owns s = [(1, 17)] | _ => False end.
Proof. vm_compute. split_and!; reflexivity. Qed.
(** C40_safe_exit *)
Example C40_guarded : guarded (λ _, 0) all_tracked knone start (initializers [0] ++ late ++ [LStep; LPop]) ∧
  no_leak (λ _, 0) all_tracked knone start (initializers [0] ++ late ++ [LStep; LPop]) = true.
Proof.
  split; [|by vm_compute]. apply initializers_guarded; [apply NoDup_singleton|set_solver|done|by vm_compute].
Qed.

Print Assumptions C39_ready.
Print Assumptions C39_once.
Print Assumptions C39_idempotent.
Print Assumptions C39_static_initializer.
Print Assumptions C40_order.
Print Assumptions C40_safe_exit.
Print Assumptions C40_initializers_first.
Print Assumptions C40_late_container_refuted.
Print Assumptions C51_outer_initializer_refuted.
Print Assumptions C51_no_tracking_refuted.
Print Assumptions C51_leak_refuted.
