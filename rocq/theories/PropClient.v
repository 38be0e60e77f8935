(** C64: a program that uses flyweights behaves as it would with plain values
    of any depth, whatever other threads do with their own objects. *)
From Verif Require Import SerializeProofs CoreRace Instances PropInner Client.

Section Spec.
  Context {K A R V L : Type} (P : policy K A R V) (FS : factory K).
  Notation state := (state (R:=R) (K:=K) (A:=A) FS).
  Context (lab : R → L) (own : var → Prop).
  (** the objects of the program are what they would be as plain values *)
  Definition denotes (s : state) (x : var) (o : option (tree L)) : Prop :=
    match o with
    | Some T => ∃ v, value_of s x = Some v ∧ shows P FS lab s v.1 T
    | None => vars s !! x = None
    end.
  Definition agrees (s : state) (M : gmap var (tree L)) : Prop :=
    (∀ x, own x → denotes s x (M !! x)) ∧ ∀ x, is_Some (M !! x) → own x.
  (** other threads use neither these names nor the thread of the program *)
  Definition foreign (t : tid) (l : clab (A:=A)) : Prop :=
    match l with Env l => label_tid l ≠ t → ∀ x, own x → writes x l = false | Go => True end.
  Definition on_time (cfg : config) (t0 : tid) (l : clab (A:=A)) : Prop :=
    match l with Env l => lck cfg = false → label_tid l = t0 | Go => True end.
End Spec.

Section Sim.
  Context {K A R V L O : Type}.
  Context (P : policy K A R V) (FS : factory K) (cfg : config).
  Context (eqv : K → K → bool) (good : R → Prop).
  Context (Heq : equivalence eqv) (HP : policy_ok eqv good P) (HF : factory_spec eqv FS).
  Context (t0 : tid).
  Context `{EqDecision L} (lab : R → L).
  Context (Hkey : ∀ r r', eqv (p_key P r) (p_key P r') = bool_decide (lab r = lab r') && bool_decide (p_kids P r = p_kids P r')).
  Context (own : var → Prop) (makes : A → nat → L → Prop).
  (** arguments that make a value *)
  Context (Hmakes : ∀ a ks l, makes a (length ks) l → ∃ r, p_make P a ks = Some r ∧ p_kids P r = ks ∧ lab r = l).
  Context (t : tid) (Ht : lck cfg = false → t = t0).

  Notation state := (state (R:=R) (K:=K) (A:=A) FS).
  Notation op := (op (A:=A)).
  Notation Inv := (Inv P FS cfg eqv good HF t0).
  Notation allowed := (allowed cfg t0).
  Notation cnt := (cnt P FS).
  Notation step := (step P FS cfg).
  Notation run := (run P FS cfg).
  Notation reachable := (reachable P FS cfg t0).
  Notation shows := (shows P FS lab).
  Notation denotes := (denotes P FS lab).
  Notation agrees := (agrees P FS lab own).
  Notation prog := (prog (A:=A) (L:=L) (O:=O)).
  Notation plain := (plain (O:=O) own makes true).
  Notation plain' := (Client.plain (O:=O) own makes).
  Notation safe := (safe (O:=O) own makes).
  Notation pstep := (pstep P FS cfg lab t).
  Notation prun := (prun P FS cfg lab t).
  Notation leq := (λ l l', bool_decide (l = l')).
  Implicit Types (s : state) (M : gmap var (tree L)).

  Lemma shows_keep s l s' x v T : reachable s → allowed (label_tid l) → step s l = Next s' → value_of s x = Some v → shows s v.1 T → shows s' v.1 T.
  Proof.
    intros Hre Hal Hs Hv HT. pose proof (reach_inv P FS cfg eqv good Heq HP HF t0 s Hre) as HI. destruct v as [h r].
    apply (value_of_var P FS cfg eqv good HF t0) in Hv as (Hx&n&Hn&_); [|done]. simpl in *.
    eapply (shows_step P FS cfg eqv good Heq HP HF t0 lab s l s' h n); try done. by eapply var_cnt.
  Qed.
  Lemma denotes_keep s l s' x o : reachable s → allowed (label_tid l) → step s l = Next s' → writes x l = false → denotes s x o → denotes s' x o.
  Proof.
    intros Hre Hal Hs Hw. destruct o as [T|]; simpl.
    - intros (v&Hv&HT). exists v. split; [by eapply keep_value|by eapply shows_keep].
    - intros Hn. by eapply keep_none.
  Qed.
  Lemma part_shows s v path w T : part_of P FS s v path w → shows s v.1 T → (∀ n, heap s !! v.1 = Some n → n_rep n = v.2) → ∃ U, subtree T path = Some U ∧ shows s w.1 U.
  Proof.
    intros Hp. revert T. induction Hp as [v|h r j path a n w Hj Hn Hp IH]; intros T HT Hv; simpl in *; [eauto|].
    inversion HT as [h' n' ts Hn' Hts]; subst. rewrite (Hv _ Hn') in Hts. destruct (Forall2_lookup_l _ _ _ _ _ Hts Hj) as (U&HU&HaU).
    rewrite HU. apply IH; [done|]. intros m Hm. by simplify_eq.
  Qed.
  Lemma shows_part s path : Inv s → ∀ h n T U, entry s h = Some n → shows s h T → subtree T path = Some U →
    ∃ h' n', part_of P FS s (h, n_rep n) path (h', n_rep n') ∧ entry s h' = Some n' ∧ shows s h' U.
  Proof.
    intros HI. induction path as [|j path IH]; intros h n T U Hn HT; simpl.
    - intros [= <-]. exists h, n. split_and!; [constructor|done|done].
    - destruct (shows_inv P FS lab s h n T Hn HT) as (ts&->&Hts). destruct (ts !! j) as [W|] eqn:Hj; [|done]. intros HU.
      destruct (Forall2_lookup_r _ _ _ _ _ Hts Hj) as (a&Ha&HaW).
      destruct (kid_entry P FS cfg eqv good HF t0 s h n a HI Hn) as (_&m&Hm&Hma&_); [by eapply elem_of_list_lookup_2|].
      destruct (IH a m W U Hm HaW HU) as (h'&n'&Hp&Hn'&HU'). exists h', n'. split_and!; [by eapply part_in|done|done].
  Qed.

  (** [x] is being constructed *)
  Definition but (x : var) s M : Prop := (∀ y, own y → y ≠ x → denotes s y (M !! y)) ∧ ∀ y, is_Some (M !! y) → own y.
  Definition waits s (o : op) (k : bool → prog) M : Prop :=
    match o with
    | ONew x a ys => ∃ ts l r ks, own x ∧ M !! x = None ∧ Forall2 (λ y T, M !! y = Some T) ys ts ∧ makes a (length ts) l ∧
        but x s M ∧ building P FS eqv s t x (p_key P r) ∧ lab r = l ∧ p_kids P r = ks ∧ Forall2 (λ y h, live s y = Some h) ys ks
    | _ => ∃ M', plain' false (Call o k, M) (k true, M') ∧ agrees s M'
    end.
  Definition sim (c : state * bool * prog) M : Prop :=
    let '(s, w, p) := c in
    reachable s ∧ if w : bool then ∃ o k, p = Call o k ∧ waits s o k M else stack s t = [] ∧ agrees s M.

  Lemma agrees_keep s l s' M : reachable s → allowed (label_tid l) → step s l = Next s' → (∀ x, own x → writes x l = false) → agrees s M → agrees s' M.
  Proof. intros Hre Hal Hs Hw [H1 H2]. split; [|done]. intros x Hx. eapply denotes_keep; eauto. Qed.
  Lemma live_denotes s x T : reachable s → denotes s x (Some T) → ∃ h, live s x = Some h ∧ shows s h T.
  Proof.
    intros Hre ([h r]&Hv&HT). exists h. split; [|done]. unfold live. unfold value_of in Hv. repeat case_match; by simplify_eq.
  Qed.

  (** steps of the environment *)
  Lemma sim_env s w p l M s' : sim (s, w, p) M → allowed (label_tid l) → starts t l = false → (label_tid l ≠ t → ∀ x, own x → writes x l = false) →
    step s l = Next s' → sim (s', w, p) M.
  Proof.
    intros [Hre Hw] Hal Hst Hf Hs. pose proof (reach_step P FS cfg t0 s l s' Hre Hal Hs) as Hre'.
    assert (Hwr : ∀ x, own x → writes x l = false).
    { destruct (decide (label_tid l = t)) as [E|E]; [|by apply Hf]. intros x _. destruct l as [u o|]; [|done]. simpl in *. subst u. by rewrite bool_decide_true in Hst. }
    split; [done|]. destruct w.
    - destruct Hw as (o&k&->&Hwt). exists o, k. split; [done|].
      destruct o as [x a ys|x y|x y|x y|x|x|x y path]; simpl in *;
        try (destruct Hwt as (M'&Hp&Hag); exists M'; split; [done|exact (agrees_keep s l s' M' Hre Hal Hs Hwr Hag)]).
      destruct Hwt as (ts&l'&r&ks&Hx&HM&Hts&Hmk&[Hb1 Hb2]&HB&Hl&Hk&Hys). exists ts, l', r, ks. do 4 (split; [done|]). split; [|split; [|split_and!; [done|done|]]].
      + split; [|done]. intros y Hy Hne. apply (denotes_keep s l s' y _ Hre Hal Hs); auto.
      + by apply (building_step P FS cfg eqv good Heq HP HF t0 s l s' t x (p_key P r) Hre Hal Hs Hst (Hwr x Hx)).
      + apply Forall2_same_length_lookup. split; [by eapply Forall2_length|]. intros i y h Hi Hh.
        pose proof (Forall2_lookup_lr _ _ _ _ _ _ Hys Hi Hh) as Hlv. simpl in Hlv.
        destruct (Forall2_lookup_l _ _ _ _ _ Hts Hi) as (T&_&HT).
        apply (keep_live P FS cfg eqv good Heq HP HF t0 s l s' y h Hre Hal Hs); [apply Hwr, Hb2; eauto|done].
    - destruct Hw as [Hemp Hag]. split; [|exact (agrees_keep s l s' M Hre Hal Hs Hwr Hag)].
      destruct (decide (label_tid l = t)) as [E|E]; [|rewrite <- Hemp; eapply step_other; [done|congruence]].
      destruct l as [u o|u c]; simpl in *; subst u; [by rewrite bool_decide_true in Hst|]. by rewrite Hemp in Hs.
  Qed.

  Lemma agrees_upd s s' x T M : agrees s M → own x → denotes s' x (Some T) → (∀ y, own y → y ≠ x → denotes s y (M !! y) → denotes s' y (M !! y)) →
    agrees s' (<[x:=T]> M).
  Proof.
    intros [H1 H2] Hx HT Hk. split.
    - intros y Hy. destruct (decide (y = x)) as [->|Hne]; [by rewrite lookup_insert|]. rewrite lookup_insert_ne by done. auto.
    - intros y [U HU]. destruct (decide (y = x)) as [->|Hne]; [done|]. rewrite lookup_insert_ne in HU by done. apply H2. eauto.
  Qed.

  (** the program goes on *)
  Lemma sim_start s o k M c : sim (s, false, Call o k) M → plain (Call o k, M) c → ∃ s', step s (LStart t o) = Next s' ∧ sim (s', true, Call o k) M.
  Proof.
    intros [Hre [Hst Hag]] Hp. pose proof (reach_inv P FS cfg eqv good Heq HP HF t0 s Hre) as HI. pose proof Hag as [Ha1 Ha2].
    assert (Hlive : ∀ y T, M !! y = Some T → ∃ h, live s y = Some h ∧ shows s h T).
    { intros y T HT. apply live_denotes; [done|]. rewrite <- HT. apply Ha1, Ha2. eauto. }
    assert (Hnone : ∀ y, own y → M !! y = None → vars s !! y = None) by (intros y Hy HN; specialize (Ha1 y Hy); by rewrite HN in Ha1).
    assert (Hnext : (∃ s', step s (LStart t o) = Next s') → (∀ s', step s (LStart t o) = Next s' → reachable s' → waits s' o k M) →
      ∃ s', step s (LStart t o) = Next s' ∧ sim (s', true, Call o k) M).
    { intros [s' Hs] HW. exists s'. split; [done|]. assert (Hre' : reachable s') by exact (reach_step P FS cfg t0 s (LStart t o) s' Hre Ht Hs).
      split; [done|]. exists o, k. split; [done|]. by apply HW. }
    assert (Hun : ∀ s' y, step s (LStart t o) = Next s' → writes y (LStart t o) = false → denotes s y (M !! y) → denotes s' y (M !! y)).
    { intros s' y Hs Hw Hd. by eapply (denotes_keep s (LStart t o) s'). }
    assert (Hval : ∀ s' y v T, step s (LStart t o) = Next s' → value_of s y = Some v → shows s v.1 T → shows s' v.1 T).
    { intros s' y v T Hs Hv HT. by eapply (shows_keep s (LStart t o) s'). }
    assert (Hvo : ∀ y T, M !! y = Some T → ∃ v, value_of s y = Some v ∧ shows s v.1 T).
    { intros y T HT. assert (Hy : own y) by eauto. specialize (Ha1 y Hy). by rewrite HT in Ha1. }
    apply Hnext; clear Hnext.
    - (* enabled *) 
      assert (Hns : step s (LStart t o) ≠ Stuck).
      { simpl. rewrite Hst.
        inversion Hp as [x a ys ts l k0 M0 Hx HM Hts Hmk E1 E2|x a ys ts l k0 M0 _ Hx HM Hts Hmk E1 E2|x y T k0 M0 Hx HM HT E1 E2|x y T U k0 M0 HT HU E1 E2
          |x y T U k0 M0 HT HU E1 E2|x T k0 M0 HT E1 E2|x T k0 M0 HT E1 E2|x y path T U k0 M0 Hx HM HT HU E1 E2| |]; simplify_eq; simpl.
        1,2: rewrite (Hnone x) by done; assert (∃ ks, mapM (live s) ys = Some ks) as [ks ->] by
          (apply mapM_is_Some_2, Forall_forall; intros y Hy; apply elem_of_list_lookup_1 in Hy as [i Hi];
           destruct (Forall2_lookup_l _ _ _ _ _ Hts Hi) as (T&_&HT); destruct (Hlive _ _ HT) as (h&Hh&_); exists h; exact Hh);
          by repeat case_match.
        - destruct (Hlive _ _ HT) as (h&->&_). rewrite (Hnone x) by done. by repeat case_match.
        - destruct (Hlive _ _ HT) as (h&->&_), (Hlive _ _ HU) as (h'&->&_). by repeat case_match.
        - destruct (Hlive _ _ HT) as (h&->&_), (Hlive _ _ HU) as (h'&->&_). by repeat case_match.
        - by destruct (Hlive _ _ HT) as (h&->&_).
        - destruct (Hlive _ _ HT) as (h&->&_). by repeat case_match.
        - destruct (Hlive _ _ HT) as (h&Hh&HTh). rewrite (Hnone x), Hh by done.
          destruct (live_entry P FS cfg eqv good HF t0 s y h HI Hh) as (n&Hn&_).
          destruct (shows_part s path HI h n T U Hn HTh HU) as (h'&n'&Hp'&Hn'&_).
          destruct (part_inner P FS cfg eqv good HF t0 s _ _ _ Hp' HI n) as (Hin&_); [by eapply live_cnt|done|done|]. simpl in Hin. rewrite Hin.
          by repeat case_match. }
      pose proof (step_ok P FS cfg eqv good Heq HP HF t0 s (LStart t o) HI Ht) as Hok. unfold res_ok in Hok.
      destruct (step s (LStart t o)) as [s'| |]; [eauto|done|done].
    - intros s' Hs Hre'. pose proof Hp as Hp0.
      inversion Hp as [x a ys ts l k0 M0 Hx HM Hts Hmk E1 E2|x a ys ts l k0 M0 _ Hx HM Hts Hmk E1 E2|x y T k0 M0 Hx HM HT E1 E2|x y T U k0 M0 HT HU E1 E2
          |x y T U k0 M0 HT HU E1 E2|x T k0 M0 HT E1 E2|x T k0 M0 HT E1 E2|x y path T U k0 M0 Hx HM HT HU E1 E2| |]; simplify_eq; cbn [waits].
      1,2: (assert (∃ ks, mapM (live s) ys = Some ks ∧ Forall2 (λ y h, live s y = Some h) ys ks) as (ks&Eks&Hks) by
          (assert (is_Some (mapM (live s) ys)) as [ks Eks] by
            (apply mapM_is_Some_2, Forall_forall; intros y Hy; apply elem_of_list_lookup_1 in Hy as [i Hi];
             destruct (Forall2_lookup_l _ _ _ _ _ Hts Hi) as (T&_&HT); destruct (Hlive _ _ HT) as (h&Hh&_); exists h; exact Hh);
           exists ks; split; [done|by apply mapM_Some]);
        assert (Hln : length ks = length ts) by (by rewrite <- (Forall2_length _ _ _ Hks), <- (Forall2_length _ _ _ Hts));
        rewrite <- Hln in Hmk; destruct (Hmakes a ks l Hmk) as (r&Hr&Hkr&Hlr); rewrite Hln in Hmk;
        exists ts, l, r, ks; do 4 (split; [done|]); split; [|split; [|split_and!; [done|done|]]];
        [split; [|done]; intros y Hy Hne; apply (Hun s' y Hs); [simpl; by apply bool_decide_eq_false|by apply Ha1]
        | simpl in Hs; rewrite Hst in Hs; simpl in Hs; rewrite (Hnone x), Eks in Hs by done;
          destruct (copy_handles FS cfg s ks); [|done]; rewrite Hr in Hs; injection Hs as <-;
          left; exists (Some (p_key P r)); rewrite stack_set, decide_True by done; split; [done|by right]
        | eapply Forall2_impl; [exact Hks|]; intros y h Hy;
          assert (Hyx : y ≠ x) by (intros ->; apply live_vars in Hy; rewrite (Hnone x) in Hy by done; done);
          apply (keep_live P FS cfg eqv good Heq HP HF t0 s (LStart t (ONew x a ys)) s' y h Hre Ht Hs); [simpl; by apply bool_decide_eq_false|done]]).
      + eexists. split; [by eapply Pl_copy|]. destruct (copy_step P FS cfg eqv good Heq HP HF t0 s t x y s' Hre Ht Hs) as (E1&_&_).
        destruct (Hvo y T HT) as (v&Hv&HvT). apply (agrees_upd s s' x T M Hag Hx).
        * exists v. rewrite E1. split; [done|]. by eapply Hval.
        * intros z _ Hne. apply (Hun s' z Hs). simpl. by apply bool_decide_eq_false.
      + eexists. split; [by eapply Pl_assign|]. destruct (assign_step P FS cfg eqv good Heq HP HF t0 s t x y s' Hre Ht Hs) as (E1&_&_).
        destruct (Hvo y U HU) as (v&Hv&HvT). apply (agrees_upd s s' x U M Hag); [eauto| |].
        * exists v. rewrite E1. split; [done|]. by eapply Hval.
        * intros z _ Hne. apply (Hun s' z Hs). simpl. by apply bool_decide_eq_false.
      + eexists. split; [by eapply Pl_swap|]. destruct (swap_step P FS cfg eqv good Heq HP HF t0 s t x y s' Hre Ht Hs) as (E1&E2&_).
        destruct (Hvo y U HU) as (v&Hv&HvU), (Hvo x T HT) as (v'&Hv'&HvT). split.
        * intros z Hz. destruct (decide (z = y)) as [->|Hzy]; [rewrite lookup_insert; exists v'; rewrite E2; split; [done|by eapply Hval]|].
          rewrite lookup_insert_ne by done. destruct (decide (z = x)) as [->|Hzx]; [rewrite lookup_insert; exists v; rewrite E1; split; [done|by eapply Hval]|].
          rewrite lookup_insert_ne by done. apply (Hun s' z Hs); [|by apply Ha1]. simpl. apply orb_false_iff. split; by apply bool_decide_eq_false.
        * intros z [W HW]. destruct (decide (z = y)) as [->|Hzy]; [eauto|]. rewrite lookup_insert_ne in HW by done.
          destruct (decide (z = x)) as [->|Hzx]; [eauto|]. rewrite lookup_insert_ne in HW by done. eauto.
      + eexists. split; [by eapply Pl_destroy|]. destruct (destroy_step P FS cfg eqv good Heq HP HF t0 s t x s' Hre Ht Hs) as (E1&_). split.
        * intros z Hz. destruct (decide (z = x)) as [->|Hzx]; [rewrite lookup_delete; simpl; by rewrite E1, lookup_delete|].
          rewrite lookup_delete_ne by done. apply (Hun s' z Hs); [|by apply Ha1]. simpl. by apply bool_decide_eq_false.
        * intros z [W HW]. apply lookup_delete_Some in HW as [_ HW]. eauto.
      + exists M. split; [by eapply Pl_get|]. exact (agrees_keep s (LStart t (OGet x)) s' M Hre Ht Hs (λ _ _, eq_refl) Hag).
      + eexists. split; [by eapply Pl_inner|]. destruct (C61_inner P FS cfg eqv good Heq HP HF t0 s t x y path s' Hre Ht Hs) as (v&w&Hv&Hpt&Hw&_).
        destruct (Hvo y T HT) as (v'&Hv'&HvT). assert (v' = v) as -> by congruence.
        destruct (part_shows s v path w T Hpt HvT) as (U'&HU'&HwU).
        { intros n Hn. destruct v as [h r]. unfold value_of in Hv. repeat case_match; by simplify_eq/=. }
        assert (U' = U) as -> by congruence. apply (agrees_upd s s' x U M Hag Hx).
        * exists w. split; [done|]. destruct v as [hv rv]. apply (value_of_var P FS cfg eqv good HF t0) in Hv as (Hy&n&Hn&Hr&_); [|done].
          destruct (part_inner P FS cfg eqv good HF t0 s _ _ _ Hpt HI n) as (_&Hc&m&Hm&_); [by eapply var_cnt|done|done|].
          exact (shows_step P FS cfg eqv good Heq HP HF t0 lab s (LStart t (OInner x y path)) s' w.1 m HI Ht Hs Hm Hc U HwU).
        * intros z _ Hne. apply (Hun s' z Hs). simpl. by apply bool_decide_eq_false.
  Qed.

  Lemma sim_end s o k M : sim (s, true, Call o k) M → stack s t = [] → ∃ M', plain' (negb (made_it FS s o)) (Call o k, M) (k (made_it FS s o), M') ∧ sim (s, false, k (made_it FS s o)) M'.
  Proof.
    intros [Hre (o'&k'&E&Hw)] Hst. injection E as <- <-. pose proof (reach_inv P FS cfg eqv good Heq HP HF t0 s Hre) as HI.
    destruct o as [x a ys|x y|x y|x y|x|x|x y path]; simpl in Hw; cbn [made_it];
      try (destruct Hw as (M'&Hp&Hag); exists M'; split; [done|split; [done|split; done]]).
    destruct Hw as (ts&l&r&ks&Hx&HM&Hts&Hmk&[Hb1 Hb2]&HB&Hl&Hk&Hys).
    destruct (building_end P FS cfg eqv t0 s t x _ Hre HB Hst) as [Hno|(k0&Hk0&Ek)].
    - unfold live. rewrite Hno. exists M. split; [by eapply Pl_throw|]. split; [done|]. split; [done|]. split; [|done].
      intros y Hy. destruct (decide (y = x)) as [->|Hne]; [by rewrite HM|by apply Hb1].
    - unfold key_of in Hk0. destruct (value_of s x) as [[h rx]|] eqn:Hv; [|done]. injection Hk0 as <-. rewrite Hkey in Ek.
      apply andb_true_iff in Ek as [El%bool_decide_eq_true Ek%bool_decide_eq_true].
      pose proof Hv as Hv'. apply (value_of_var P FS cfg eqv good HF t0) in Hv' as (Hvx&n&Hn&Hr&_); [|done].
      assert (live s x = Some h) as -> by (unfold live; by rewrite Hvx).
      exists (<[x:=Tree l ts]> M). split; [by eapply Pl_new|]. split; [done|]. split; [done|]. split.
      + intros y Hy. destruct (decide (y = x)) as [->|Hne]; [rewrite lookup_insert|rewrite lookup_insert_ne by done; by apply Hb1].
        exists (h, rx). split; [done|]. simpl. rewrite <- Hl, <- El, <- Hr. constructor; [by apply entry_heap in Hn as [??]|].
        rewrite Hr, Ek, Hk. apply Forall2_same_length_lookup. split; [by rewrite <- (Forall2_length _ _ _ Hys), <- (Forall2_length _ _ _ Hts)|].
        intros i a' T Ha HT. destruct (Forall2_lookup_r _ _ _ _ _ Hts HT) as (y&Hiy&HyT).
        pose proof (Forall2_lookup_lr _ _ _ _ _ _ Hys Hiy Ha) as Hly. simpl in Hly.
        assert (Hyo : own y) by eauto. assert (Hyx : y ≠ x) by congruence. specialize (Hb1 y Hyo Hyx). rewrite HyT in Hb1.
        destruct (live_denotes s y T Hre Hb1) as (h'&Hh'&HT'). by simplify_eq.
      + intros y [W HW]. destruct (decide (y = x)) as [->|Hne]; [done|]. rewrite lookup_insert_ne in HW by done. eauto.
  Qed.
  Lemma alike_eq (T U : tree L) : alike leq T U → T = U.
  Proof.
    revert U. induction T as [l ts IH] using tree_ind'. intros U H. inversion H as [l0 l' ts0 us Hl Hall]; subst. apply bool_decide_eq_true in Hl as <-. f_equal.
    clear H. revert IH. induction Hall as [|T U ts us HTU Hall IHa]; intros IH; [done|]. apply Forall_cons in IH as [H1 H2]. f_equal; [by apply H1|by apply IHa].
  Qed.
  Lemma shows_same s a b n m T U : Inv s → entry s a = Some n → entry s b = Some m → shows s a T → shows s b U → (a = b ↔ T = U).
  Proof.
    intros HI Hn Hm HT HU. split.
    - intros <-. apply alike_eq. by eapply (shows_alike P FS cfg eqv good Heq HF t0 lab leq Hkey s a n).
    - intros <-. eapply (alike_same P FS cfg eqv good HF t0 lab leq Hkey s a n HI Hn b m T T); [done..|].
      by eapply (shows_alike P FS cfg eqv good Heq HF t0 lab leq Hkey s a n).
  Qed.
  Lemma sim_found s x path M T U : reachable s → agrees s M → M !! x = Some T → subtree T path = Some U →
    ∃ h n, found P FS s x path = Some (h, n_rep n) ∧ entry s h = Some n ∧ shows s h U.
  Proof.
    intros Hre [Ha1 Ha2] HT Hsub. pose proof (reach_inv P FS cfg eqv good Heq HP HF t0 s Hre) as HI.
    assert (Hd : denotes s x (Some T)) by (rewrite <- HT; apply Ha1, Ha2; eauto).
    destruct (live_denotes s x T Hre Hd) as (h&Hh&HTh). destruct (live_entry P FS cfg eqv good HF t0 s x h HI Hh) as (n&Hn&_).
    destruct (shows_part s path HI h n T U Hn HTh Hsub) as (h'&n'&Hpt&Hn'&HU).
    destruct (part_inner P FS cfg eqv good HF t0 s _ _ _ Hpt HI n) as (Hin&Hc&_); [by eapply live_cnt|done|done|]. simpl in *.
    exists h', n'. split; [|done]. unfold found. rewrite Hh, Hin, Hn'.
    destruct (i_hnd _ _ _ _ _ (i_C _ _ _ _ _ _ _ _ HI) h' Hc) as (n1&Hn1&v1&Hv1). assert (n1 = n') as -> by congruence. by rewrite Hv1.
  Qed.
  Lemma sim_look s x path k M c : sim (s, false, Look x path k) M → plain (Look x path k, M) c →
    ∃ l n, look P FS lab s x path = Some (l, n) ∧ plain (Look x path k, M) (k l n, M) ∧ sim (s, false, k l n) M.
  Proof.
    intros [Hre [Hst Hag]] Hp. inversion Hp as [| | | | | | | |x' path' T l us k' M' HT Hsub|]; simplify_eq. exists l, (length us).
    destruct (sim_found s x path M T (Tree l us) Hre Hag HT Hsub) as (h&n&Hf&Hn&HU).
    split; [|split; [by econstructor|done]]. unfold look. rewrite Hf.
    destruct (shows_inv P FS lab s h n _ Hn HU) as (us'&E&Hus). injection E as -> <-. by rewrite (Forall2_length _ _ _ Hus).
  Qed.
  Lemma sim_same s x path y path' k M c : sim (s, false, Same x path y path' k) M → plain (Same x path y path' k, M) c →
    ∃ b, same P FS s x path y path' = Some b ∧ (∀ thr, plain' thr (Same x path y path' k, M) (k b, M)) ∧ sim (s, false, k b) M.
  Proof.
    intros [Hre [Hst Hag]] Hp. pose proof (reach_inv P FS cfg eqv good Heq HP HF t0 s Hre) as HI.
    inversion Hp as [| | | | | | | | |x' p1 y' p2 T U T' U' k' b M' HT HT' HU HU' Hb]; simplify_eq.
    destruct (sim_found s x path M T T' Hre Hag HT HT') as (h&n&Hf&Hn&Hs1), (sim_found s y path' M U U' Hre Hag HU HU') as (h'&n'&Hf'&Hn'&Hs2).
    pose proof (shows_same s h h' n n' T' U' HI Hn Hn' Hs1 Hs2) as Heqv. exists b.
    split; [|split; [intros thr; by econstructor|done]]. unfold same. rewrite Hf, Hf'. f_equal.
    destruct b; [apply bool_decide_eq_true, Heqv; by apply Hb|]. apply bool_decide_eq_false. intros E%Heqv. by apply Hb in E.
  Qed.

  Lemma plain_more b c c' : plain' b c c' → plain c c'.
  Proof. destruct 1; by econstructor. Qed.

  (** ** C64 *)

  (** Whatever other threads do: the program is where it would be with plain
      values, its objects have the values they would have, and nothing goes
      wrong. *)
  Lemma sim_step c M l : sim c M → safe c.2 M → foreign own t l → on_time cfg t0 l →
    ∃ c' M', pstep c l = Some c' ∧ sim c' M' ∧ rtc plain (c.2, M) (c'.2, M').
  Proof.
    destruct c as [[s w] p]. intros Hsim Hsafe Hf Hon. cbn [snd] in *. destruct l as [l|]; simpl.
    - destruct (starts t l) eqn:Est; [by exists (s, w, p), M|].
      pose proof Hsim as [Hre _]. pose proof (reach_inv P FS cfg eqv good Heq HP HF t0 s Hre) as HI.
      pose proof (step_ok P FS cfg eqv good Heq HP HF t0 s l HI Hon) as Hok. unfold res_ok in Hok.
      destruct (step s l) as [s'| |] eqn:E; [|by exists (s, w, p), M|done]. exists (s', w, p), M. split; [done|]. split; [|done].
      by eapply sim_env.
    - destruct p as [o|o k|x path k|x path y path' k]; [by exists (s, w, Ret o), M| | |].
      + destruct w.
        * destruct (stack s t) as [|i rest] eqn:Est; [|by exists (s, true, Call o k), M].
          destruct (sim_end s o k M Hsim Est) as (M'&Hp&Hs'). exists (s, false, k (made_it FS s o)), M'. split; [done|]. split; [done|]. by eapply rtc_once, plain_more.
        * destruct (Hsafe _ _ (rtc_refl _ _)) as [[? ?]|[c Hc]]; [done|]. destruct (sim_start s o k M c Hsim Hc) as (s'&Hs'&Hsim').
          simpl in Hs'. rewrite Hs'. by exists (s', true, Call o k), M.
      + destruct w; [destruct Hsim as (_&o'&k'&?&_); done|].
        destruct (Hsafe _ _ (rtc_refl _ _)) as [[? ?]|[c Hc]]; [done|]. destruct (sim_look s x path k M c Hsim Hc) as (l&n&->&Hp&Hs').
        exists (s, false, k l n), M. split; [done|]. split; [done|]. by apply rtc_once.
      + destruct w; [destruct Hsim as (_&o'&k'&?&_); done|].
        destruct (Hsafe _ _ (rtc_refl _ _)) as [[? ?]|[c Hc]]; [done|]. destruct (sim_same s x path y path' k M c Hsim Hc) as (b&->&Hp&Hs').
        exists (s, false, k b), M. split; [done|]. split; [done|]. by apply rtc_once.
  Qed.
  Lemma safe_plain p M p' M' : safe p M → rtc plain (p, M) (p', M') → safe p' M'.
  Proof. intros H Hr p1 M1 H1. apply H. by etrans. Qed.
  Lemma sim_run ls : ∀ c M, sim c M → safe c.2 M → Forall (foreign own t) ls → Forall (on_time cfg t0) ls →
    ∃ c' M', prun c ls = Some c' ∧ sim c' M' ∧ rtc plain (c.2, M) (c'.2, M').
  Proof.
    induction ls as [|l ls IH]; intros c M Hs Hsafe Hf Hon; [by exists c, M|]. apply Forall_cons in Hf as [Hl Hf], Hon as [Hl' Hon].
    destruct (sim_step c M l Hs Hsafe Hl Hl') as (c1&M1&Hp&Hs1&Hr1). cbn [Client.prun]. rewrite Hp.
    destruct (IH c1 M1 Hs1 (safe_plain _ _ _ _ Hsafe Hr1) Hf Hon) as (c2&M2&H2&Hs2&Hr2). exists c2, M2. split; [done|]. split; [done|]. by etrans.
  Qed.
  Theorem C64_transparent s (p : prog) M ls :
    reachable s → stack s t = [] → agrees s M → safe p M → Forall (foreign own t) ls → Forall (on_time cfg t0) ls →
    ∃ s' w p' M', prun (s, false, p) ls = Some (s', w, p') ∧ reachable s' ∧ rtc plain (p, M) (p', M') ∧
      (if w then ∃ o k, p' = Call o k else stack s' t = [] ∧ agrees s' M').
  Proof.
    intros Hre Hst Hag Hsafe Hf Hon. destruct (sim_run ls (s, false, p) M) as ([[s' w] p']&M'&Hp&[Hre' Hs']&Hr); [done|done|done|done|].
    exists s', w, p', M'. split; [done|]. split; [done|]. split; [done|]. destruct w; [|done]. destruct Hs' as (o&k&->&_). eauto.
  Qed.

  (** It can always be brought to its end, where it is as if nothing had
      thrown. *)
  Lemma prun_app (c : state * bool * prog) ls ls' : prun c (ls ++ ls') = match prun c ls with Some c' => prun c' ls' | None => None end.
  Proof. revert c. induction ls as [|l ls IH]; intros c; [done|]. cbn [app Client.prun]. by destruct (pstep c l). Qed.
  Lemma prun_env ls : ∀ s s' w (p : prog), Forall is_run ls → run s ls = Next s' → prun (s, w, p) (Env <$> ls) = Some (s', w, p).
  Proof.
    induction ls as [|l ls IH]; intros s s' w p Hr; cbn [Core.run]; [by intros [= ->]|]. apply Forall_cons in Hr as [Hl Hr]. intros Hs.
    cbn [fmap list_fmap Client.prun Client.pstep]. destruct l as [u o|u c]; [done|]. cbn [starts].
    destruct (step s (LRun u c)) as [s1| |]; [|by apply IH|done]. by apply IH.
  Qed.
  Definition quiet (l : clab (A:=A)) : Prop := match l with Env l => is_run l | Go => True end.
  Lemma quiet_foreign ls : Forall quiet ls → Forall (foreign own t) ls.
  Proof. intros H. eapply Forall_impl; [exact H|]. intros [[u o|u c]|]; done. Qed.
  Lemma drain s w (p : prog) M : sim (s, w, p) M → safe p M → ∃ ls s', Forall quiet ls ∧ Forall (on_time cfg t0) ls ∧
    prun (s, w, p) ls = Some (s', w, p) ∧ sim (s', w, p) M ∧ quiescent s'.
  Proof.
    intros Hsim Hsafe. pose proof Hsim as [Hre _]. pose proof (reach_inv P FS cfg eqv good Heq HP HF t0 s Hre) as HI.
    destruct (can_finish P FS cfg eqv good Heq HP HF t0 s HI) as (ls&s'&H1&H2&H3&H4).
    exists (Env <$> ls), s'. split; [by apply Forall_fmap|]. split; [apply Forall_fmap; eapply Forall_impl; [exact H1|done]|].
    split; [by apply prun_env|]. split; [|done].
    clear H4. revert s HI H3 Hsim Hre. induction ls as [|l ls IH]; intros s HI; cbn [Core.run]; [by intros [= ->]|]. apply Forall_cons in H1 as [Hl H1], H2 as [Hr H2].
    intros Hs Hsim Hre. pose proof (step_ok P FS cfg eqv good Heq HP HF t0 s l HI Hl) as Hok. unfold res_ok in Hok.
    destruct (step s l) as [s1| |] eqn:E; [|by eapply IH|done]. destruct l as [u o|u c]; [done|].
    assert (Hsim1 : sim (s1, w, p) M) by (eapply sim_env; [done|done|done|done|done]).
    eapply (IH H1 H2 s1); [|done|done|by destruct Hsim1]. destruct Hsim1 as [Hre1 _]. by apply (reach_inv P FS cfg eqv good Heq HP HF t0).
  Qed.
  Theorem C64_completes (p : prog) : ∀ s M,
    reachable s → stack s t = [] → agrees s M → safe p M →
    ∃ ls s' o M', Forall quiet ls ∧ Forall (on_time cfg t0) ls ∧ prun (s, false, p) ls = Some (s', false, Ret o) ∧
      rtc (plain' false) (p, M) (Ret o, M') ∧ reachable s' ∧ quiescent s' ∧ agrees s' M'.
  Proof.
    induction p as [o|o k IH|x path k IH|x path y path' k IH]; intros s M Hre Hst Hag Hsafe.
    - destruct (drain s false (Ret o) M) as (ls&s'&H1&H2&H3&[Hre' [_ Hag']]&Hq); [done|done|]. exists ls, s', o, M. by split_and!.
    - destruct (drain s false (Call o k) M) as (ls&s1&H1&H2&H3&Hsim1&Hq); [done|done|].
      destruct (Hsafe _ _ (rtc_refl _ _)) as [[? ?]|[c Hc]]; [done|].
      destruct (sim_start s1 o k M c Hsim1 Hc) as (s2&Hs2&Hsim2).
      (* the call completes and does not throw *)
      assert (∃ cs s3, Forall quiet cs ∧ Forall (on_time cfg t0) cs ∧ prun (s2, true, Call o k) cs = Some (s3, true, Call o k) ∧
        sim (s3, true, Call o k) M ∧ stack s3 t = [] ∧ made_it FS s3 o = true) as (cs&s3&Q1&Q2&Q3&Q4&Q5&Q6).
      { destruct (match o with ONew _ _ _ => true | _ => false end) eqn:Eo.
        2: { destruct (drain s2 true (Call o k) M Hsim2 Hsafe) as (cs&s3&Q1&Q2&Q3&Q4&Q5). exists cs, s3. split_and!; try done. by destruct o. }
        destruct o as [x a ys| | | | | |]; try done. pose proof Hsim1 as [Hre1 [Hst1 Hag1]]. pose proof (reach_inv P FS cfg eqv good Heq HP HF t0 s1 Hre1) as HI1.
        pose proof Hsim2 as [_ (o'&k'&E&Hw)]. injection E as <- <-. destruct Hw as (ts&l&_&_&Hx&HM&Hts&Hmk&_).
        assert (Hks : ∃ ks, Forall2 (λ y h, vars s1 !! y = Some (Some h)) ys ks ∧ length ks = length ts).
        { destruct Hag1 as [Ha1 Ha2]. clear -Hts Ha1 Ha2 Hre1. induction Hts as [|y T ys ts Hy Hts IHt]; [by exists []|]. destruct IHt as (ks&E1&E2).
          assert (Hyo : own y) by eauto. specialize (Ha1 y Hyo). rewrite Hy in Ha1. destruct (live_denotes s1 y T Hre1 Ha1) as (h&Hh&_).
          exists (h :: ks). split; [constructor; [by apply live_vars|done]|simpl; lia]. }
        destruct Hks as (ks&Hks&Hln). rewrite <- Hln in Hmk. destruct (Hmakes a ks l Hmk) as (r&Hr&_).
        assert (Hvx : vars s1 !! x = None) by (destruct Hag1 as [Ha1 _]; specialize (Ha1 x Hx); by rewrite HM in Ha1).
        destruct (new_succeeds P FS cfg eqv good Heq HP HF t0 s1 t x a ys ks r Hre1 Ht Hst1) as (s2'&cs&s3&N1&_&N3&N4&h&bs&N5&_); [|done|done|done|].
        { intros El. by apply (quiescent_unlocked P FS cfg eqv good HF t0). }
        assert (s2' = s2) as -> by congruence.
        assert (Hir : Forall is_run (LRun (A:=A) t <$> cs)) by (apply Forall_fmap, Forall_true; done).
        assert (Hpr : prun (s2, true, Call (ONew x a ys) k) (Env <$> (LRun t <$> cs)) = Some (s3, true, Call (ONew x a ys) k)) by (by apply prun_env).
        assert (Hqt : Forall quiet (Env <$> (LRun t <$> cs))) by (by apply Forall_fmap).
        assert (Hot : Forall (on_time cfg t0) (Env (A:=A) <$> (LRun t <$> cs))) by (rewrite !Forall_fmap; apply Forall_true; intros ? E; by apply Ht).
        exists (Env <$> (LRun t <$> cs)), s3. split_and!; try done.
        - clear -Hsim2 N3 Ht Heq HP HF Hkey Hmakes. revert s2 Hsim2 N3. induction cs as [|c cs IHc]; intros s2 Hsim2; cbn [map Core.run]; [by intros [= ->]|].
          intros N3. pose proof Hsim2 as [Hre2 _]. pose proof (reach_inv P FS cfg eqv good Heq HP HF t0 s2 Hre2) as HI2.
          pose proof (step_ok P FS cfg eqv good Heq HP HF t0 s2 (LRun t c) HI2 Ht) as Hok. unfold res_ok in Hok.
          destruct (step s2 (LRun t c)) as [s4| |] eqn:E; [|by eapply IHc|done]. eapply IHc; [|done]. by apply (sim_env s2 true _ (LRun t c) M s4 Hsim2 Ht).
        - simpl. unfold live. by rewrite N5, lookup_insert. }
      destruct (sim_end s3 o k M Q4 Q5) as (M'&Hp'&Hsim3). rewrite Q6 in Hp', Hsim3. simpl in Hp'. pose proof Hsim3 as [Hre3 [Hst3 Hag3]].
      destruct (IH true s3 M' Hre3 Hst3 Hag3) as (ls2&s'&o'&M2&R1&R2&R3&R4&R5&R6&R7); [eapply safe_plain; [exact Hsafe|eapply rtc_once, plain_more, Hp']|].
      exists (ls ++ Go :: cs ++ Go :: ls2), s', o', M2. split; [rewrite Forall_app, Forall_cons, Forall_app, Forall_cons; done|].
      split; [rewrite Forall_app, Forall_cons, Forall_app, Forall_cons; done|]. split; [|split_and!; [by eapply rtc_l|done..]].
      rewrite prun_app, H3. cbn [Client.prun Client.pstep pgo]. rewrite Hs2, prun_app, Q3. cbn [Client.prun Client.pstep pgo]. by rewrite Q5, Q6.
    - destruct (Hsafe _ _ (rtc_refl _ _)) as [[? ?]|[c Hc]]; [done|].
      destruct (sim_look s x path k M c) as (l&n&Hl&Hp&Hsim); [done|done|]. pose proof Hsim as [_ [_ Hag1]].
      destruct (IH l n s M Hre Hst Hag1) as (ls2&s'&o'&M2&R1&R2&R3&R4&R5&R6&R7); [eapply safe_plain; [exact Hsafe|by apply rtc_once]|].
      exists (Go :: ls2), s', o', M2. split; [by constructor|]. split; [by constructor|]. split; [|split_and!; [|done..]].
      + cbn [Client.prun Client.pstep pgo]. by rewrite Hl.
      + eapply rtc_l; [|done]. inversion Hp; simplify_eq. by econstructor.
    - destruct (Hsafe _ _ (rtc_refl _ _)) as [[? ?]|[c Hc]]; [done|].
      destruct (sim_same s x path y path' k M c) as (b&Hl&Hp&Hsim); [done|done|]. pose proof Hsim as [_ [_ Hag1]].
      destruct (IH b s M Hre Hst Hag1) as (ls2&s'&o'&M2&R1&R2&R3&R4&R5&R6&R7); [eapply safe_plain; [exact Hsafe|by apply rtc_once]|].
      exists (Go :: ls2), s', o', M2. split; [by constructor|]. split; [by constructor|]. split; [|split_and!; [|done..]].
      + cbn [Client.prun Client.pstep pgo]. by rewrite Hl.
      + by eapply rtc_l.
  Qed.

  (** With tracking, when no call is in progress: what is stored is every
      different tree among the values and their parts, once. *)
  Lemma subtree_app (T : tree L) p q : subtree T (p ++ q) = match subtree T p with Some U => subtree U q | None => None end.
  Proof. revert T. induction p as [|j p IH]; intros [l ts]; [done|]. simpl. destruct (ts !! j); [apply IH|done]. Qed.
  Lemma held_entry s a : Inv s → held P FS s a → ∃ n, entry s a = Some n ∧ 0 < cnt s a.
  Proof.
    intros HI. induction 1 as [x h Hx|b n a _ (m&Hm&_) Hb Ha].
    - destruct (i_hnd _ _ _ _ _ (i_C _ _ _ _ _ _ _ _ HI) h) as (n&Hn&_); [by eapply var_cnt|]. exists n. split; [done|by eapply var_cnt].
    - assert (m = n) as -> by (apply entry_heap in Hm as [??]; congruence). destruct (kid_entry P FS cfg eqv good HF t0 s b n a HI Hm Ha) as (Hc&k&Hk&_). eauto.
  Qed.
  Theorem C64_minimal s : trk cfg = true → reachable s → quiescent s →
    (∀ a n, heap s !! a = Some n → ∃ T, shows s a T) ∧
    (∀ a b T U, shows s a T → shows s b U → (a = b ↔ T = U)) ∧
    ∀ T, (∃ a, shows s a T) ↔ ∃ x v W path, value_of s x = Some v ∧ shows s v.1 W ∧ subtree W path = Some T.
  Proof.
    intros Htr Hre Hq. pose proof (reach_inv P FS cfg eqv good Heq HP HF t0 s Hre) as HI.
    assert (Hent : ∀ a n, heap s !! a = Some n → entry s a = Some n).
    { intros a n Hn. destruct (held_entry s a HI) as (m&Hm&_); [by eapply (exact_contents P FS cfg eqv good Heq HP HF t0 s a Htr Hre Hq); eauto|].
      apply entry_heap in Hm as [Hm ?]. assert (m = n) as -> by congruence. by apply entry_heap. }
    assert (Hsh : ∀ a T, shows s a T → ∃ n, entry s a = Some n) by (intros a T HT; inversion HT; subst; eauto).
    assert (Huq : ∀ a b T U, shows s a T → shows s b U → (a = b ↔ T = U)) by (intros a b T U HT HU; destruct (Hsh a T HT), (Hsh b U HU); by eapply (shows_same s)).
    split; [|split; [done|]].
    - intros a n Hn. by eapply (shows_some P FS cfg eqv good HF t0 lab s a n HI), Hent.
    - intros T. split.
      + intros [a HT]. destruct (Hsh a T HT) as [n Hn]. assert (Hh : held P FS s a).
        { apply (exact_contents P FS cfg eqv good Heq HP HF t0 s a Htr Hre Hq). apply entry_heap in Hn as [? _]. eauto. }
        clear n Hn. revert T HT. induction Hh as [x h Hx|b n a Hb IH Hn Ha]; intros T HT.
        * destruct (i_hnd _ _ _ _ _ (i_C _ _ _ _ _ _ _ _ HI) h) as (n&Hn&Hd); [by eapply var_cnt|].
          exists x, (h, n_rep n), T, []. split_and!; [|done|done]. apply (value_of_var P FS cfg eqv good HF t0); eauto.
        * destruct (shows_some P FS cfg eqv good HF t0 lab s b n HI (Hent _ _ Hn)) as [W HW]. destruct (IH W HW) as (x&v&W0&path&Hx&HW0&Hsub).
          destruct (shows_inv P FS lab s b n W (Hent _ _ Hn) HW) as (ts&->&Hts). apply elem_of_list_lookup in Ha as [j Hj].
          destruct (Forall2_lookup_l _ _ _ _ _ Hts Hj) as (T'&HT'&HaT'). assert (T' = T) as -> by (by eapply (Huq a a T' T)).
          exists x, v, W0, (path ++ [j]). split_and!; [done|done|]. rewrite subtree_app, Hsub. simpl. by rewrite HT'.
      + intros (x&[h r]&W&path&Hx&HW&Hsub). apply (value_of_var P FS cfg eqv good HF t0) in Hx as (_&n&Hn&_); [|done].
        destruct (shows_part s path HI h n W T Hn HW Hsub) as (h'&n'&_&_&HT). eauto.
  Qed.
End Sim.

(** ** Example: lists as in [PropStruct.v].  The program makes (1 (2 1)), takes
    out the list in it, makes a list from that and a copy of the whole, and
    counts; thread 2 makes (2 1) and 2 of its own meanwhile. *)
Definition cmakes (a : option nat) (n : nat) (l : option nat) : Prop := l = a ∧ (a = None ∨ n = 0).
Lemma cmakes_fun a n l l' : cmakes a n l → cmakes a n l' → l = l'.
Proof. intros [-> _] [-> _]. done. Qed.
Lemma cmakes_make a ks l : cmakes a (length ks) l → ∃ r, p_make cP a ks = Some r ∧ p_kids cP r = ks ∧ r.1 = l.
Proof. intros [-> H]. destruct a as [w|]; simpl; [|eauto]. destruct H as [?|H]; [done|]. apply nil_length_inv in H as ->. eauto. Qed.
Definition small (x : var) : Prop := x < 10.
Definition counts : prog (A:=option nat) (L:=option nat) (O:=list (option nat * nat)) :=
  let new x a ys p := Call (ONew x a ys) (λ b : bool, if b then p else Ret []) in
  new 1 (Some 1) [] (new 2 (Some 2) [] (new 3 None [2; 1] (new 4 None [1; 3] (
  Call (OInner 5 4 [1]) (λ _, Call (OSwap 5 1) (λ _, Call (OAssign 2 4) (λ _, Call (ODestroy 3) (λ _, new 6 None [1; 2; 5] (
  Look 6 [] (λ l0 n0, Look 6 [0] (λ l1 n1, Look 6 [1; 1] (λ l2 n2, Look 6 [1; 1; 0] (λ l3 n3, Look 5 [] (λ l4 n4,
  Same 6 [0] 6 [1; 1] (λ b, Same 6 [0] 5 [] (λ b',
  Ret [(l0, n0); (l1, n1); (l2, n2); (l3, n3); (l4, n4); (if b then Some 7 else None, if b' : bool then 1 else 0)])))))))))))))))).
Definition others : list (list (clab (A:=option nat))) :=
  [[Env (LStart 2 (ONew 12 (Some 2) []))]; [Env (LStart 2 (ONew 11 (Some 1) []))]; [Env (LStart 2 (ONew 13 None [12; 11]))]; [Env (LStart 2 (ODestroy 12))]].
Definition turns (n i : nat) : list (clab (A:=option nat)) :=
  concat ((λ j, [Go; Env (LRun 1 (Choice (100 + 2 * (i + j)) false)); Env (LRun 2 (Choice (101 + 2 * (i + j)) false))]) <$> seq 0 n).
Definition busy : list (clab (A:=option nat)) := concat (imap (λ i l, l ++ turns 40 (40 * i)) others) ++ turns 60 160.
Lemma counts_wp thr : wp small cmakes thr counts ∅ (λ o M, o = [(None, 3); (None, 2); (None, 2); (Some 2, 0); (Some 1, 0); (Some 7, 0)] ∨ thr = true ∧ o = []).
Proof.
  unfold counts. cbn [wp]. repeat
    match goal with
    | |- small _ ∧ _ => split; [unfold small; lia|]
    | |- cmakes _ _ _ ∧ _ => split; [split; [reflexivity|first [by left|by right]]|]
    | |- Forall2 _ _ _ ∧ _ => split; [repeat (apply Forall2_cons; split; [reflexivity|]); apply Forall2_nil; done|]
    | |- _ ∧ (thr = true → _) => split; [|by intros; right]
    | |- _ = _ ∧ _ => split; [reflexivity|]
    | |- ∀ b : bool, _ => intros b Hb; first [assert (b = true) as -> by (by apply Hb)|assert (b = false) as -> by (destruct b; [discriminate (proj1 Hb eq_refl)|done])]; clear Hb
    | |- ∃ _, _ => eexists
    end.
  by left.
Qed.
Example C64_at_work : let c := prun cP cFS rc fst 1 (init cFS, false, counts) busy in
  safe small cmakes counts ∅ ∧ agrees cP cFS fst small (init (R:=ckey) cFS) ∅ ∧ Forall (foreign small 1) busy ∧ Forall (on_time rc 0) busy ∧
  match c with
  | Some (s, w, p) => w = false ∧ p = Ret [(None, 3); (None, 2); (None, 2); (Some 2, 0); (Some 1, 0); (Some 7, 0)] ∧ size (heap s) = 5 ∧
      stack s 1 = [] ∧ stack s 2 = [] ∧ live s 13 = live s 1 ∧ is_Some (live s 1)
  | None => False
  end.
Proof.
  split; [eapply wp_safe; [exact cmakes_fun|exact (counts_wp true)]|]. split; [split; [done|intros x [? Hx]; by rewrite lookup_empty in Hx]|].
  split.
  { apply Forall_forall. intros l Hl. assert (Hb : forallb (λ l : clab (A:=option nat), match l with Env (LStart 2 o) => match o with ONew x _ _ | ODestroy x => 10 <=? x | _ => false end | Env (LStart _ _) => false | _ => true end) busy = true) by (vm_compute; reflexivity).
    rewrite forallb_forall in Hb. apply elem_of_list_In in Hl. specialize (Hb l Hl). destruct l as [[u o|u c]|]; [|done|done]. intros _ x Hx. unfold small in Hx.
    destruct u as [|[|[|u]]]; try done. destruct o; try done; apply Nat.leb_le in Hb; simpl; apply bool_decide_eq_false; lia. }
  split; [apply Forall_forall; intros [l|] _; done|]. vm_compute. split_and!; try reflexivity. by eexists.
Qed.

Print Assumptions C64_transparent.
Print Assumptions C64_completes.
Print Assumptions C64_minimal.
