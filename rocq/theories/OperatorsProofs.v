(** Proofs about Operators.v. *)
From Verif Require Export Operators.

(** ** Vocabulary *)
(** types as they are written: five policy arguments at every level; classes
    derive from flyweight types only *)
Fixpoint proper (t : oty) : Prop :=
  match t with
  | Base _ => True
  | Fly v args => length args = 5 ∧ proper v
  | Der _ f => match f with Fly v args => length args = 5 ∧ proper v | _ => False end
  end.
Definition is_fly (t : oty) : Prop := ∃ v args, t = Fly v args.
Definition is_der (t : oty) : Prop := ∃ n v args, t = Der n (Fly v args).
Definition is_base (t : oty) : Prop := ∃ n, t = Base n.

Section proofs.
  Context (ucv : oty → oty → bool) (user_ops : cop → list (nat * nat * nat)).
  Notation viable := (viable ucv).
  Notation better := (better ucv).
  Notation candidates := (candidates user_ops).
  Notation choose := (choose ucv user_ops).

  Lemma better_asym t u c d : better t u c d = true → better t u d c = true → False.
  Proof.
    unfold Operators.better. destruct (viable t u c) as [[i j]|], (viable t u d) as [[k l]|]; try done.
    rewrite !andb_true_iff, !orb_true_iff, !Nat.leb_le, !Nat.ltb_lt, !andb_true_iff.
    unfold special. intros [[H1 H2] H3] [[H4 H5] H6].
    assert (i = k) by lia. assert (j = l) by lia. subst.
    destruct H3 as [[[?|?]|[Hc Hd]]|[[Hc Hd] Hs]]; [lia|lia|..]; destruct H6 as [[[?|?]|[Hc' Hd']]|[[Hc' Hd'] Hs']]; try lia.
    - destruct (o_tmpl c), (o_tmpl d); done.
    - destruct (o_tmpl c), (o_tmpl d); done.
    - destruct (o_tmpl c), (o_tmpl d); done.
    - rewrite !andb_true_iff, orb_true_iff in Hs, Hs'.
      destruct (o_l c), (o_l d), (o_r c), (o_r d); simpl in *; naive_solver.
  Qed.
  Lemma choose_intro o t u c r :
    c ∈ candidates o t u → viable t u c = Some r →
    (∀ d, d ∈ candidates o t u → d ≠ c → is_Some (viable t u d) → better t u c d = true) →
    choose o t u = Chosen (o_act c).
  Proof.
    intros Hc Hv Hb. unfold Operators.choose. set (cs := filter _ (candidates o t u)).
    assert (c ∈ cs) as Hcs. { apply elem_of_list_filter. split; [|done]. rewrite bool_decide_eq_true. eauto. }
    assert (∀ d, d ∈ cs → d ≠ c → better t u c d = true) as Hb'.
    { intros d Hd Hne. apply elem_of_list_filter in Hd as [Hvd Hd]. rewrite bool_decide_eq_true in Hvd. auto. }
    set (ws := filter _ cs).
    assert (c ∈ ws) as Hcw.
    { apply elem_of_list_filter. split; [|done]. apply forallb_forall. intros d Hd. rewrite <- elem_of_list_In in Hd.
      destruct (decide (c = d)) as [->|Hne]; [by rewrite bool_decide_true|]. rewrite (Hb' d) by done. by rewrite orb_true_r. }
    assert (∀ d, d ∈ ws → d = c) as Hu.
    { intros d Hd. apply elem_of_list_filter in Hd as [Hf Hd]. destruct (decide (d = c)) as [|Hne]; [done|].
      rewrite forallb_forall in Hf. specialize (Hf c (proj1 (elem_of_list_In _ _) Hcs)).
      rewrite bool_decide_false in Hf by done. simpl in Hf. exfalso. eapply better_asym; [apply Hf|]. by apply Hb'. }
    destruct ws as [|w ws']; [by apply elem_of_nil in Hcw|]. f_equal. f_equal. apply Hu. constructor.
  Qed.
  Lemma choose_ambiguous o t u c1 c2 :
    c1 ∈ candidates o t u → c2 ∈ candidates o t u → viable t u c1 = Some (1, 0) → viable t u c2 = Some (0, 1) →
    (∀ d, d ∈ candidates o t u → viable t u d ≠ Some (0, 0)) →
    choose o t u = Ambiguous.
  Proof.
    intros H1 H2 V1 V2 Hn. unfold Operators.choose. set (cs := filter _ (candidates o t u)).
    assert (c1 ∈ cs) as Hc1. { apply elem_of_list_filter. split; [|done]. rewrite bool_decide_eq_true. eauto. }
    assert (c2 ∈ cs) as Hc2. { apply elem_of_list_filter. split; [|done]. rewrite bool_decide_eq_true. eauto. }
    set (ws := filter _ cs).
    assert (ws = []) as ->.
    { destruct ws as [|w ws'] eqn:E; [done|]. assert (w ∈ ws) as Hw by (rewrite E; constructor).
      apply elem_of_list_filter in Hw as [Hf Hw]. apply elem_of_list_filter in Hw as [Hvw Hw].
      rewrite forallb_forall in Hf.
      pose proof (Hf c1 (proj1 (elem_of_list_In _ _) Hc1)) as B1. pose proof (Hf c2 (proj1 (elem_of_list_In _ _) Hc2)) as B2.
      specialize (Hn w Hw). exfalso. apply orb_true_iff in B1, B2. rewrite !bool_decide_eq_true in *.
      assert (∀ a b, viable t u w = Some (a, b) → a ≤ 1 → b ≤ 0 → a ≤ 0 → False) as Hz.
      { intros a b E1 ???. apply Hn. rewrite E1. f_equal. f_equal; lia. }
      destruct Hvw as [[a b] Ew].
      assert (a ≤ 1 ∧ b ≤ 0) as [??].
      { destruct B1 as [->|B1]; [rewrite V1 in Ew; injection Ew as <- <-; lia|]. unfold Operators.better in B1. rewrite Ew, V1 in B1.
        rewrite !andb_true_iff, !Nat.leb_le in B1. lia. }
      assert (a ≤ 0) as ?.
      { destruct B2 as [->|B2]; [rewrite V2 in Ew; injection Ew as <- <-; lia|]. unfold Operators.better in B2. rewrite Ew, V2 in B2.
        rewrite !andb_true_iff, !Nat.leb_le in B2. lia. }
      eapply Hz; eauto. }
    destruct cs; [by apply elem_of_nil in Hc1|done].
  Qed.

  (** ** Candidates *)
  Lemma assoc_fly t f : f ∈ associated t → is_fly f.
  Proof.
    induction t as [n|v IH args|n g IH]; simpl.
    - by intros ?%elem_of_nil.
    - intros [->|?]%elem_of_cons; [by eexists _, _|auto].
    - done.
  Qed.
  Lemma candidate_inv o t u c : c ∈ candidates o t u →
    (∃ v args, c = OCand (AFriend (Fly v args)) false (PCls (Fly v args)) (PCls (Fly v args)) ∧ (o = CEq ∨ o = CNe)) ∨
    c = OCand ABoth true (PFw 5) (PFw 5) ∨ c = OCand ALeft true (PFw 5) PAny ∨ c = OCand ARight true PAny (PFw 5) ∨
    (∃ i n m, c = OCand (AUser i) false (PCls (Base n)) (PCls (Base m))).
  Proof.
    unfold Operators.candidates. rewrite !elem_of_app. intros [H|[H|H]].
    - left. assert (o = CEq ∨ o = CNe) as Ho. { destruct o; auto; by apply elem_of_nil in H. }
      assert (c ∈ (λ f, OCand (AFriend f) false (PCls f) (PCls f)) <$> remove_dups (associated t ++ associated u)) as H'
        by (destruct Ho as [-> | ->]; done).
      apply elem_of_list_fmap in H' as (f & -> & Hf). rewrite elem_of_remove_dups, elem_of_app in Hf.
      assert (is_fly f) as (v & args & ->) by (destruct Hf; by eapply assoc_fly). eauto.
    - destruct (bool_decide _); [by apply elem_of_nil in H|]. unfold templates in H.
      rewrite !elem_of_cons, elem_of_nil in H. naive_solver.
    - apply elem_of_list_fmap in H as ([[i n] m] & -> & _). right. right. right. right. eauto.
  Qed.
  Lemma templates_in o t u c : associated t ++ associated u ≠ [] → c ∈ templates → c ∈ candidates o t u.
  Proof. intros Hn Hc. unfold Operators.candidates. rewrite bool_decide_false by done. rewrite !elem_of_app. auto. Qed.
  Lemma friend_in o t u v args : (o = CEq ∨ o = CNe) → Fly v args ∈ associated t ++ associated u →
    OCand (AFriend (Fly v args)) false (PCls (Fly v args)) (PCls (Fly v args)) ∈ candidates o t u.
  Proof.
    intros Ho Hin. unfold Operators.candidates. rewrite !elem_of_app. left.
    assert (OCand (AFriend (Fly v args)) false (PCls (Fly v args)) (PCls (Fly v args)) ∈
      (λ f, OCand (AFriend f) false (PCls f) (PCls f)) <$> remove_dups (associated t ++ associated u)).
    { apply elem_of_list_fmap. exists (Fly v args). split; [done|]. by rewrite elem_of_remove_dups. }
    destruct Ho as [-> | ->]; done.
  Qed.

  Lemma deducible5 v args : length args = 5 → deducible 5 (Fly v args) = true.
  Proof. intros Hl. simpl. by rewrite drop_ge by lia. Qed.
  Lemma conv_fw_fly v args : length args = 5 → conv ucv (PFw 5) (Fly v args) = Some 0.
  Proof. intros Hl. unfold conv. change (fly_base (Fly v args)) with (Some (Fly v args, false)). cbv beta iota. by rewrite deducible5. Qed.
  Lemma conv_fw_der n v args : length args = 5 → conv ucv (PFw 5) (Der n (Fly v args)) = Some 1.
  Proof. intros Hl. unfold conv. change (fly_base (Der n (Fly v args))) with (Some (Fly v args, true)). cbv beta iota. by rewrite deducible5. Qed.
  Lemma conv_fw_base n : conv ucv (PFw 5) (Base n) = None.
  Proof. done. Qed.
  Lemma conv_cls_fly v args w i : conv ucv (PCls w) (Fly v args) = Some i → w ≠ Fly v args → i = 2.
  Proof.
    unfold conv. destruct (decide _); [by subst|]. assert (derives (Fly v args) w = false) as -> by done.
    destruct (_ || _); congruence.
  Qed.
  Lemma conv_cls_base n w i : conv ucv (PCls w) (Base n) = Some i → w ≠ Base n → i = 2.
  Proof.
    unfold conv. destruct (decide _); [by subst|]. assert (derives (Base n) w = false) as -> by done.
    destruct (_ || _); congruence.
  Qed.
  Lemma conv_cls_der n f w i : conv ucv (PCls w) (Der n f) = Some i → w ≠ Der n f → 1 ≤ i.
  Proof.
    unfold conv. destruct (decide _); [by subst|]. intros H _. destruct (derives _ _); [injection H as <-; lia|].
    destruct (_ || _); simplify_eq; lia.
  Qed.
  Lemma viable_inv t u c i j : viable t u c = Some (i, j) ↔ conv ucv (o_l c) t = Some i ∧ conv ucv (o_r c) u = Some j.
  Proof. unfold Operators.viable. destruct (conv _ (o_l c) t), (conv _ (o_r c) u); naive_solver. Qed.

  (** a candidate with exact conversions is better than another one that is
      worse somewhere *)
  Lemma better_zero t u c d i j :
    viable t u c = Some (0, 0) → viable t u d = Some (i, j) → 1 ≤ i + j → better t u c d = true.
  Proof.
    intros Hc Hd Hij. unfold Operators.better. rewrite Hc, Hd. rewrite !andb_true_iff, !orb_true_iff, !Nat.leb_le, !Nat.ltb_lt. lia.
  Qed.
  Lemma better_special t u c d i j :
    viable t u c = Some (i, j) → viable t u d = Some (i, j) → o_tmpl c = true → o_tmpl d = true → special c d = true → better t u c d = true.
  Proof.
    intros Hc Hd T1 T2 Hs. unfold Operators.better. rewrite Hc, Hd, T1, T2, Hs, !Nat.leb_refl. simpl. by rewrite orb_true_r.
  Qed.

  (** ** Which operator is chosen *)
  Lemma choose_same o v args : (o = CEq ∨ o = CNe) → length args = 5 →
    choose o (Fly v args) (Fly v args) = Chosen (AFriend (Fly v args)).
  Proof.
    intros Ho Hl. set (t := Fly v args).
    assert (viable t t (OCand (AFriend t) false (PCls t) (PCls t)) = Some (0, 0)) as Hv.
    { apply viable_inv. simpl. unfold conv. by rewrite decide_True. }
    eapply (choose_intro o t t (OCand (AFriend t) false (PCls t) (PCls t))); [|exact Hv|].
    - apply friend_in; [done|]. apply elem_of_app. left. constructor.
    - intros d Hd Hne [[i j] Hvd]. pose proof Hvd as Hvd'. apply viable_inv in Hvd' as [Hi Hj].
      assert (∀ d', d = d' → o_tmpl d' = true → better t t (OCand (AFriend t) false (PCls t) (PCls t)) d = true) as Ht.
      { intros d' <- Ht. unfold Operators.better. rewrite Hv, Hvd, Ht. simpl. by rewrite !orb_true_r. }
      apply candidate_inv in Hd as [(w & args' & -> & _)|[->|[->|[->|(k & n & m & ->)]]]]; try (by eapply Ht).
      + cbn [o_l o_r] in Hi. eapply better_zero; [done..|]. apply conv_cls_fly in Hi; [lia|]. intros E. apply Hne. by rewrite E.
      + cbn [o_l o_r] in Hi. eapply better_zero; [done..|]. apply conv_cls_fly in Hi; [lia|done].
  Qed.
  Lemma choose_both o v args w args' : length args = 5 → length args' = 5 → (o = CEq ∨ o = CNe → Fly v args ≠ Fly w args') →
    choose o (Fly v args) (Fly w args') = Chosen ABoth.
  Proof.
    intros Hl Hl' Hne. set (t := Fly v args). set (u := Fly w args').
    assert (viable t u (OCand ABoth true (PFw 5) (PFw 5)) = Some (0, 0)) as Hv by (apply viable_inv; split; by apply conv_fw_fly).
    eapply (choose_intro o t u (OCand ABoth true (PFw 5) (PFw 5))); [|exact Hv|].
    - apply templates_in; [done|constructor].
    - intros d Hd Hnd [[i j] Hvd]. pose proof Hvd as Hvd'. apply viable_inv in Hvd' as [Hi Hj].
      apply candidate_inv in Hd as [(x & ax & -> & Ho)|[->|[->|[->|(k & n & m & ->)]]]]; cbn [o_l o_r] in Hi, Hj.
      + eapply better_zero; [done..|]. destruct (decide (Fly x ax = t)) as [E|E].
        * rewrite E in Hj. apply conv_cls_fly in Hj; [lia|]. by apply Hne.
        * apply conv_cls_fly in Hi; [lia|done].
      + done.
      + try unfold t in Hi; try unfold u in Hi; rewrite conv_fw_fly in Hi by done. cbn in Hi, Hj. simplify_eq. eapply better_special; done.
      + try unfold t in Hj; try unfold u in Hj; rewrite conv_fw_fly in Hj by done. cbn in Hi, Hj. simplify_eq. eapply better_special; done.
      + eapply better_zero; [done..|]. apply conv_cls_fly in Hi; [lia|done].
  Qed.
  Lemma choose_left o v args n : length args = 5 → choose o (Fly v args) (Base n) = Chosen ALeft.
  Proof.
    intros Hl. set (t := Fly v args).
    assert (viable t (Base n) (OCand ALeft true (PFw 5) PAny) = Some (0, 0)) as Hv by (apply viable_inv; split; [by apply conv_fw_fly|done]).
    eapply (choose_intro o t (Base n) (OCand ALeft true (PFw 5) PAny)); [|exact Hv|].
    - apply templates_in; [done|]. constructor. constructor.
    - intros d Hd Hnd [[i j] Hvd]. pose proof Hvd as Hvd'. apply viable_inv in Hvd' as [Hi Hj].
      apply candidate_inv in Hd as [(x & ax & -> & Ho)|[->|[->|[->|(k & m & m' & ->)]]]]; cbn [o_l o_r] in Hi, Hj; try done.
      + eapply better_zero; [done..|]. apply conv_cls_base in Hj; [lia|done].
      + eapply better_zero; [done..|]. apply conv_cls_fly in Hi; [lia|done].
  Qed.
  Lemma choose_right o v args n : length args = 5 → choose o (Base n) (Fly v args) = Chosen ARight.
  Proof.
    intros Hl. set (t := Fly v args).
    assert (viable (Base n) t (OCand ARight true PAny (PFw 5)) = Some (0, 0)) as Hv by (apply viable_inv; split; [done|by apply conv_fw_fly]).
    eapply (choose_intro o (Base n) t (OCand ARight true PAny (PFw 5))); [|exact Hv|].
    - apply templates_in; [done|]. constructor. constructor. constructor.
    - intros d Hd Hnd [[i j] Hvd]. pose proof Hvd as Hvd'. apply viable_inv in Hvd' as [Hi Hj].
      apply candidate_inv in Hd as [(x & ax & -> & Ho)|[->|[->|[->|(k & m & m' & ->)]]]]; cbn [o_l o_r] in Hi, Hj; try done.
      + eapply better_zero; [done..|]. apply conv_cls_base in Hi; [lia|done].
      + eapply better_zero; [done..|]. apply conv_cls_fly in Hj; [lia|done].
  Qed.
  Lemma choose_der_der o n v args m w args' : length args = 5 → length args' = 5 →
    choose o (Der n (Fly v args)) (Der m (Fly w args')) = Ambiguous.
  Proof.
    intros Hl Hl'. set (t := Der n (Fly v args)). set (u := Der m (Fly w args')).
    eapply (choose_ambiguous o t u (OCand ALeft true (PFw 5) PAny) (OCand ARight true PAny (PFw 5))).
    - apply templates_in; [done|]. constructor. constructor.
    - apply templates_in; [done|]. constructor. constructor. constructor.
    - apply viable_inv. split; [by apply conv_fw_der|done].
    - apply viable_inv. split; [done|by apply conv_fw_der].
    - intros d Hd Hv. apply viable_inv in Hv as [Hi Hj].
      apply candidate_inv in Hd as [(x & ax & -> & Ho)|[->|[->|[->|(k & m1 & m2 & ->)]]]]; cbn [o_l o_r] in Hi, Hj.
      + apply conv_cls_der in Hi; [lia|done].
      + try unfold t in Hi; try unfold u in Hi; rewrite conv_fw_der in Hi by done. done.
      + try unfold t in Hi; try unfold u in Hi; rewrite conv_fw_der in Hi by done. done.
      + try unfold t in Hj; try unfold u in Hj; rewrite conv_fw_der in Hj by done. done.
      + apply conv_cls_der in Hi; [lia|done].
  Qed.
  Lemma choose_der_fly o n v args w args' : length args = 5 → length args' = 5 →
    choose o (Der n (Fly v args)) (Fly w args') = Chosen ARight.
  Proof.
    intros Hl Hl'. set (t := Der n (Fly v args)). set (u := Fly w args').
    assert (viable t u (OCand ARight true PAny (PFw 5)) = Some (0, 0)) as Hv by (apply viable_inv; split; [done|by apply conv_fw_fly]).
    eapply (choose_intro o t u (OCand ARight true PAny (PFw 5))); [|exact Hv|].
    - apply templates_in; [done|]. constructor. constructor. constructor.
    - intros d Hd Hnd [[i j] Hvd]. pose proof Hvd as Hvd'. apply viable_inv in Hvd' as [Hi Hj].
      apply candidate_inv in Hd as [(x & ax & -> & Ho)|[->|[->|[->|(k & m & m' & ->)]]]]; cbn [o_l o_r] in Hi, Hj; try done;
        (eapply better_zero; [done..|]).
      + apply conv_cls_der in Hi; [lia|done].
      + try unfold t in Hi; try unfold u in Hi; rewrite conv_fw_der in Hi by done. simplify_eq. lia.
      + try unfold t in Hi; try unfold u in Hi; rewrite conv_fw_der in Hi by done. simplify_eq. lia.
      + apply conv_cls_der in Hi; [lia|done].
  Qed.
  Lemma choose_fly_der o n v args w args' : length args = 5 → length args' = 5 →
    choose o (Fly w args') (Der n (Fly v args)) = Chosen ALeft.
  Proof.
    intros Hl Hl'. set (t := Der n (Fly v args)). set (u := Fly w args').
    assert (viable u t (OCand ALeft true (PFw 5) PAny) = Some (0, 0)) as Hv by (apply viable_inv; split; [by apply conv_fw_fly|done]).
    eapply (choose_intro o u t (OCand ALeft true (PFw 5) PAny)); [|exact Hv|].
    - apply templates_in; [done|]. constructor. constructor.
    - intros d Hd Hnd [[i j] Hvd]. pose proof Hvd as Hvd'. apply viable_inv in Hvd' as [Hi Hj].
      apply candidate_inv in Hd as [(x & ax & -> & Ho)|[->|[->|[->|(k & m & m' & ->)]]]]; cbn [o_l o_r] in Hi, Hj; try done;
        (eapply better_zero; [done..|]).
      + apply conv_cls_der in Hj; [lia|done].
      + try unfold t in Hj; try unfold u in Hj; rewrite conv_fw_der in Hj by done. simplify_eq. lia.
      + try unfold t in Hj; try unfold u in Hj; rewrite conv_fw_der in Hj by done. simplify_eq. lia.
      + apply conv_cls_fly in Hi; [lia|done].
  Qed.
  (** derived class and a class that is not a flyweight *)
  Lemma choose_der_base o n v args m : length args = 5 → choose o (Der n (Fly v args)) (Base m) = Chosen ALeft.
  Proof.
    intros Hl. set (t := Der n (Fly v args)).
    assert (viable t (Base m) (OCand ALeft true (PFw 5) PAny) = Some (1, 0)) as Hv by (apply viable_inv; split; [by apply conv_fw_der|done]).
    eapply (choose_intro o t (Base m) (OCand ALeft true (PFw 5) PAny)); [|exact Hv|].
    - apply templates_in; [done|]. constructor. constructor.
    - intros d Hd Hnd [[i j] Hvd]. pose proof Hvd as Hvd'. apply viable_inv in Hvd' as [Hi Hj].
      assert (1 ≤ i → 2 ≤ i ∨ 1 ≤ j → better t (Base m) (OCand ALeft true (PFw 5) PAny) d = true) as Hb.
      { intros H1 H2. unfold Operators.better. rewrite Hv, Hvd. rewrite !andb_true_iff, !orb_true_iff, !Nat.leb_le, !Nat.ltb_lt. lia. }
      apply candidate_inv in Hd as [(x & ax & -> & Ho)|[->|[->|[->|(k & p & q & ->)]]]]; cbn [o_l o_r] in Hi, Hj; try done; apply Hb.
      + apply conv_cls_der in Hi; [lia|done].
      + apply conv_cls_base in Hj; [lia|done].
      + apply conv_cls_der in Hi; [lia|done].
      + left. revert Hi. unfold conv. destruct (decide _); [done|]. assert (∀ x, derives t (Base x) = false) as -> by done.
        destruct (_ || _); intros; simplify_eq; lia.
  Qed.
  Lemma choose_base_der o n v args m : length args = 5 → choose o (Base m) (Der n (Fly v args)) = Chosen ARight.
  Proof.
    intros Hl. set (t := Der n (Fly v args)).
    assert (viable (Base m) t (OCand ARight true PAny (PFw 5)) = Some (0, 1)) as Hv by (apply viable_inv; split; [done|by apply conv_fw_der]).
    eapply (choose_intro o (Base m) t (OCand ARight true PAny (PFw 5))); [|exact Hv|].
    - apply templates_in; [done|]. constructor. constructor. constructor.
    - intros d Hd Hnd [[i j] Hvd]. pose proof Hvd as Hvd'. apply viable_inv in Hvd' as [Hi Hj].
      assert (1 ≤ j → 1 ≤ i ∨ 2 ≤ j → better (Base m) t (OCand ARight true PAny (PFw 5)) d = true) as Hb.
      { intros H1 H2. unfold Operators.better. rewrite Hv, Hvd. rewrite !andb_true_iff, !orb_true_iff, !Nat.leb_le, !Nat.ltb_lt. lia. }
      apply candidate_inv in Hd as [(x & ax & -> & Ho)|[->|[->|[->|(k & p & q & ->)]]]]; cbn [o_l o_r] in Hi, Hj; try done; apply Hb.
      + apply conv_cls_der in Hj; [lia|done].
      + apply conv_cls_base in Hi; [lia|done].
      + apply conv_cls_der in Hj; [lia|done].
      + right. revert Hj. unfold conv. destruct (decide _); [done|]. assert (∀ x, derives t (Base x) = false) as -> by done.
        destruct (_ || _); intros; simplify_eq; lia.
  Qed.
End proofs.
