(** set_factory satisfies the factory laws when Compare is a strict weak
    ordering. *)
From Coq Require Import Sorted.
From Verif Require Export SetFactory.

Section proofs.
  Context {K : Type} (lt : K → K → bool) (Hlt : strict_weak_order lt).
  Context (rot : tree → tree) (Hrot : ∀ t, inorder (rot t) = inorder t).
  Implicit Types (kv : addr → option K) (t : tree).

  Lemma lt_asym x y : lt x y = true → lt y x = false.
  Proof.
    intros H. destruct (lt y x) eqn:E; [|done]. pose proof (swo_trans _ Hlt _ _ _ H E).
    by rewrite (swo_irrefl _ Hlt) in *.
  Qed.
  Lemma lt_eqv_iff x y : lt_eqv lt x y = true ↔ lt x y = false ∧ lt y x = false.
  Proof. unfold lt_eqv. destruct (lt x y), (lt y x); simpl; naive_solver. Qed.
  Lemma lt_eqv_equivalence : equivalence (lt_eqv lt).
  Proof.
    split.
    - intros k. apply lt_eqv_iff. by rewrite (swo_irrefl _ Hlt).
    - intros k l. rewrite !lt_eqv_iff. naive_solver.
    - intros k l m. rewrite !lt_eqv_iff. intros [??] [??]. by eapply (swo_incomp _ Hlt).
  Qed.
  Lemma lt_eqv_l x x' y : lt_eqv lt x' x = true → lt x y = true → lt x' y = true.
  Proof.
    rewrite lt_eqv_iff. intros [H1 H2] H. destruct (lt x' y) eqn:E; [done|]. exfalso.
    destruct (lt y x') eqn:E'.
    - pose proof (swo_trans _ Hlt _ _ _ H E'). congruence.
    - destruct (swo_incomp _ Hlt x x' y); [done..|]. congruence.
  Qed.
  Lemma lt_eqv_r x y y' : lt_eqv lt y' y = true → lt x y = true → lt x y' = true.
  Proof.
    rewrite lt_eqv_iff. intros [H1 H2] H. destruct (lt x y') eqn:E; [done|]. exfalso.
    destruct (lt y' x) eqn:E'.
    - pose proof (swo_trans _ Hlt _ _ _ E' H). congruence.
    - destruct (swo_incomp _ Hlt x y' y); [done..|]. congruence.
  Qed.

  Definition before kv (a b : addr) : Prop :=
    ∃ ka kb, kv a = Some ka ∧ kv b = Some kb ∧ lt ka kb = true.
  Definition live kv (l : list addr) : Prop := ∀ a, a ∈ l → is_Some (kv a).

  Lemma before_irrefl kv a : ¬ before kv a a.
  Proof. intros (ka&kb&?&?&H). simplify_eq. by rewrite (swo_irrefl _ Hlt) in H. Qed.

  Lemma sorted_app kv l1 l2 : StronglySorted (before kv) (l1 ++ l2) ↔
    StronglySorted (before kv) l1 ∧ StronglySorted (before kv) l2 ∧
    (∀ a b, a ∈ l1 → b ∈ l2 → before kv a b).
  Proof.
    induction l1 as [|a l1 IH]; simpl.
    - split; [|naive_solver]. intros. split_and!; [constructor|done|]. by intros ? ? ?%elem_of_nil.
    - split.
      + intros [H1 H2]%StronglySorted_inv. apply IH in H1 as (?&?&Hx). rewrite Forall_app in H2.
        destruct H2 as [H2 H3]. split_and!; [by constructor|done|].
        intros x y [->|?]%elem_of_cons Hy; [|by apply Hx]. rewrite Forall_forall in H3. by apply H3.
      + intros ([H1 H2]%StronglySorted_inv&H3&Hx). constructor.
        * apply IH. split_and!; [done|done|]. intros x y ??. apply Hx; [by right|done].
        * apply Forall_app. split; [done|]. apply Forall_forall. intros y Hy. apply Hx; [by left|done].
  Qed.
  Lemma sorted_cons kv a l : StronglySorted (before kv) (a :: l) ↔
    StronglySorted (before kv) l ∧ ∀ b, b ∈ l → before kv a b.
  Proof.
    split.
    - intros [H1 H2]%StronglySorted_inv. rewrite Forall_forall in H2. done.
    - intros [H1 H2]. constructor; [done|]. by apply Forall_forall.
  Qed.

  (** split of the in-order sequence by a key *)
  Definition split_at kv k (l l1 l2 : list addr) : Prop :=
    l = l1 ++ l2 ∧ (∀ a, a ∈ l1 → ∃ ka, kv a = Some ka ∧ lt k ka = false) ∧
    (∀ a, a ∈ l2 → ∃ ka, kv a = Some ka ∧ lt k ka = true).

  Lemma pos_spec kv k t : live kv (inorder t) → StronglySorted (before kv) (inorder t) →
    ∃ l1 l2, split_at kv k (inorder t) l1 l2 ∧
      (∀ best, pos lt t kv k best = Some (match last l1 with Some a => Some a | None => best end)) ∧
      ∀ a, inorder (insert_leaf lt t kv a k) = l1 ++ a :: l2.
  Proof.
    induction t as [|l IHl a r IHr]; simpl; intros Hl Hs.
    - exists [], []. split_and!; try done. split_and!; [done|..]; by intros ? ?%elem_of_nil.
    - apply sorted_app in Hs as (Hs1&Hs2&Hx). apply sorted_cons in Hs2 as [Hs2 Hy].
      destruct (Hl a) as [ka Hka]; [set_solver|]. rewrite Hka. destruct (lt k ka) eqn:Elt.
      + destruct IHl as (l1&l2&(E&H1&H2)&Hp&Hi); [intros b Hb; apply Hl; set_solver|done|].
        exists l1, (l2 ++ a :: inorder r). split_and!.
        * split_and!; [by rewrite E, <- app_assoc|done|]. intros b Hb. rewrite elem_of_app, elem_of_cons in Hb.
          destruct Hb as [?|[->|Hb]]; [by apply H2|by eauto|].
          destruct (Hy _ Hb) as (ka'&kb&?&?&?). simplify_eq. exists kb. split; [done|].
          by eapply (swo_trans _ Hlt).
        * done.
        * intros b. simpl. by rewrite Hi, <- app_assoc.
      + destruct IHr as (l1&l2&(E&H1&H2)&Hp&Hi); [intros b Hb; apply Hl; set_solver|done|].
        exists (inorder l ++ a :: l1), l2. split_and!.
        * split_and!; [by rewrite E, <- app_assoc| |done]. intros b Hb. rewrite elem_of_app, elem_of_cons in Hb.
          destruct Hb as [Hb|[->|?]]; [|by eauto|by apply H1].
          destruct (Hx b a Hb) as (kb&ka'&?&?&Hba); [by left|]. simplify_eq. exists kb. split; [done|].
          destruct (lt k kb) eqn:E'; [|done]. pose proof (swo_trans _ Hlt _ _ _ E' Hba). congruence.
        * intros best. rewrite Hp. rewrite last_app_cons, last_cons. by destruct (last l1).
        * intros b. simpl. by rewrite Hi, <- app_assoc.
  Qed.

  Definition set_inv t kv (X : gset addr) : Prop :=
    live kv (inorder t) ∧ StronglySorted (before kv) (inorder t) ∧ ∀ a, a ∈ X ↔ a ∈ inorder t.

  Lemma sorted_NoDup kv l : StronglySorted (before kv) l → NoDup l.
  Proof.
    induction 1 as [|a l _ IH Hf]; constructor; [|done]. intros Ha. rewrite Forall_forall in Hf.
    by eapply before_irrefl, Hf.
  Qed.
  Lemma inorder_join l r : inorder (join l r) = inorder l ++ inorder r.
  Proof. induction l as [|l1 _ a r1 IH]; simpl; [done|]. by rewrite IH, <- app_assoc. Qed.
  Lemma filter_notin (a : addr) (l : list addr) : a ∉ l → filter (λ c, c ≠ a) l = l.
  Proof.
    induction l as [|b l IH]; [done|]. rewrite not_elem_of_cons. intros [Hne Hl].
    rewrite filter_cons_True by done. by rewrite IH.
  Qed.
  Lemma remove_notin t a : a ∉ inorder t → inorder (remove t a) = inorder t.
  Proof.
    induction t as [|l IHl b r IHr]; simpl; [done|]. intros Hn. rewrite decide_False by set_solver.
    simpl. rewrite IHl, IHr by set_solver. done.
  Qed.
  Lemma inorder_remove t a : NoDup (inorder t) → inorder (remove t a) = filter (λ c, c ≠ a) (inorder t).
  Proof.
    induction t as [|l IHl b r IHr]; simpl; [done|]. intros (H1&H2&H3)%NoDup_app.
    apply NoDup_cons in H3 as [H3 H4]. rewrite filter_app. destruct (decide (a = b)) as [->|Hne].
    - rewrite filter_cons_False by naive_solver. rewrite inorder_join. f_equal; symmetry; apply filter_notin; [|done].
      intros Hb. apply (H2 _ Hb). by left.
    - rewrite filter_cons_True by done. simpl. rewrite IHl, IHr by done. done.
  Qed.
  Lemma sorted_filter kv (Q : addr → Prop) `{∀ a, Decision (Q a)} l :
    StronglySorted (before kv) l → StronglySorted (before kv) (filter Q l).
  Proof.
    induction l as [|a l IH]; [done|]. rewrite sorted_cons. intros [Hs Ha]. destruct (decide (Q a)).
    - rewrite filter_cons_True by done. apply sorted_cons. split; [by apply IH|].
      intros b [_ Hb]%elem_of_list_filter. by apply Ha.
    - rewrite filter_cons_False by done. by apply IH.
  Qed.

  Definition set_factory_spec : factory_spec (lt_eqv lt) (set_factory lt rot).
  Proof.
    refine (FactorySpec _ _ (set_factory lt rot) set_inv _ _ _ _ _ _ _ _ _).
    - intros kv. split_and!; simpl; [by intros ? ?%elem_of_nil|constructor|]. set_solver.
    - intros c kv X a (Hl&_&HX) Ha. apply Hl. by apply HX.
    - intros c kv X k a (Hl&Hs&HX). simpl. unfold set_find.
      destruct (pos_spec kv k c Hl Hs) as (l1&l2&(E&H1&H2)&Hp&_). rewrite Hp.
      destruct (last l1) as [b|] eqn:Eb; [|done].
      assert (Hb : b ∈ l1) by (apply last_Some in Eb as [? ->]; set_solver).
      destruct (H1 _ Hb) as (kb&Hkb&Hlt1). rewrite Hkb. destruct (lt kb k) eqn:Hlt2; [done|].
      intros [= ->]. split; [apply HX; rewrite E; set_solver|]. exists kb. split; [done|].
      by apply lt_eqv_iff.
    - intros c kv X k a k' (Hl&Hs&HX). simpl. unfold set_find.
      destruct (pos_spec kv k c Hl Hs) as (l1&l2&(E&H1&H2)&Hp&_). rewrite Hp. intros Hf Ha Hk'.
      apply HX in Ha. rewrite E in Ha, Hs. apply not_true_is_false. rewrite lt_eqv_iff. intros [N1 N2].
      apply elem_of_app in Ha as [Ha|Ha].
      + destruct (last l1) as [b|] eqn:Eb; [|apply last_None in Eb as ->; by apply elem_of_nil in Ha].
        apply last_Some in Eb as [l1' ->].
        destruct (H1 b) as (kb&Hkb&Hlt1); [set_solver|]. rewrite Hkb in Hf. destruct (lt kb k) eqn:Hlt2; [|done].
        apply elem_of_app in Ha as [Ha|Ha%elem_of_list_singleton].
        * apply sorted_app in Hs as (Hs&_&_). apply sorted_app in Hs as (_&_&Hs).
          destruct (Hs a b Ha) as (ka&kb'&?&?&Hab); [by left|]. simplify_eq.
          pose proof (swo_trans _ Hlt _ _ _ Hab Hlt2). congruence.
        * simplify_eq. congruence.
      + destruct (H2 _ Ha) as (ka&?&?). simplify_eq. congruence.
    - intros c kv X k (Hl&Hs&HX). simpl. unfold set_find.
      destruct (pos_spec kv k c Hl Hs) as (l1&l2&(E&H1&H2)&Hp&_). rewrite Hp.
      destruct (last l1) as [b|] eqn:Eb; [|done].
      assert (Hb : b ∈ l1) by (apply last_Some in Eb as [? ->]; set_solver).
      destruct (H1 _ Hb) as (kb&Hkb&Hlt1). rewrite Hkb. by destruct (lt kb k).
    - done.
    - intros c kv X a k (Hl&Hs&HX) Ha Hk Hno. simpl. unfold set_link. rewrite Hk.
      destruct (pos_spec kv k c Hl Hs) as (l1&l2&(E&H1&H2)&_&Hi).
      assert (Eio : inorder (rot (insert_leaf lt c kv a k)) = l1 ++ a :: l2) by (by rewrite Hrot, Hi).
      split_and!; rewrite Eio.
      + intros b. rewrite elem_of_app, elem_of_cons. intros [Hb|[->|Hb]]; [|by eauto|];
          apply Hl; rewrite E; set_solver.
      + rewrite E in Hs. apply sorted_app in Hs as (Hs1&Hs2&Hx). apply sorted_app. split_and!; [done|..].
        * apply sorted_cons. split; [done|]. intros b Hb. destruct (H2 b Hb) as (kb&?&?). by exists k, kb.
        * intros x y Hx1 [->|Hy]%elem_of_cons; [|by apply Hx].
          destruct (H1 _ Hx1) as (kx&Hkx&Hlx). exists kx, k. split_and!; [done|done|].
          destruct (lt kx k) eqn:E'; [done|]. exfalso.
          assert (lt_eqv lt kx k = false) as Hf.
          { eapply Hno; [|done]. apply HX. rewrite E. set_solver. }
          assert (lt_eqv lt kx k = true) by (by apply lt_eqv_iff). congruence.
      + intros b. rewrite elem_of_union, elem_of_singleton, HX, E, !elem_of_app, elem_of_cons. naive_solver.
    - intros c kv X a (Hl&Hs&HX) Ha. simpl. unfold set_unlink.
      assert (Eio : inorder (rot (remove c a)) = filter (λ c, c ≠ a) (inorder c)).
      { rewrite Hrot. apply inorder_remove. by eapply sorted_NoDup. }
      split_and!; rewrite Eio.
      + intros b [_ Hb]%elem_of_list_filter. by apply Hl.
      + by apply sorted_filter.
      + intros b. rewrite elem_of_difference, elem_of_singleton, elem_of_list_filter, HX. naive_solver.
    - intros c kv kv' X (Hl&Hs&HX) Hv.
      assert (Hv' : ∀ a k, a ∈ inorder c → kv a = Some k → ∃ k', kv' a = Some k' ∧ lt_eqv lt k' k = true).
      { intros a k Ha. apply Hv. by apply HX. }
      clear Hv. split_and!; [|clear Hl|done].
      + intros a Ha. destruct (Hl a Ha) as [k Hk]. destruct (Hv' a k Ha Hk) as (k'&->&_). eauto.
      + revert Hs Hv'. generalize (inorder c). induction l as [|a l IH]; [constructor|]. rewrite !sorted_cons.
        intros [Hs Ha] Hv'. split; [apply IH; [done|]; intros; apply Hv'; [by right|done]|].
        intros b Hb. destruct (Ha b Hb) as (ka&kb&Hka&Hkb&Hab).
        destruct (Hv' a ka) as (ka'&?&?); [by left|done|].
        destruct (Hv' b kb) as (kb'&?&?); [by right|done|].
        exists ka', kb'. split_and!; [done|done|]. eapply lt_eqv_l; [done|]. by eapply lt_eqv_r.
  Defined.
End proofs.
