(** C76: example/basic.cpp.  Whatever other threads do, it shows the users read
    from the text, with the name of the first changed and those with a certain
    name replaced, as it would with strings, and leaves no object behind. *)
From Coq Require Import Ascii String ZArith.
From Verif Require Import SerializeProofs CoreRace Policies Instances PropInner Client PropClient PropParallel.
From Verif Require Import Factory.
From Verif Require Import Parallel Basic.
Open Scope list_scope.

(** ** What is read *)
Section Spec.
  Definition spaces (w : word) : Prop := Forall (.∈ list_ascii_of_string (String "009" (String "010" (String "011" (String "012" (String "013" " "))))) ) w.
  Definition name (w : word) : Prop := w ≠ [] ∧ Forall (λ c, ¬ spaces [c]) w.
  (** decimal numerals and what they stand for *)
  Definition digits : word := list_ascii_of_string "0123456789".
  Inductive numeral : word → Z → Prop :=
  | num_one (d : nat) c : digits !! d = Some c → numeral [c] (Z.of_nat d)
  | num_more w v (d : nat) c : numeral w v → digits !! d = Some c → numeral (w ++ [c]) (10 * v + Z.of_nat d).
  (** three fields for each user, with spaces between them *)
  Inductive entries : word → list person → Prop :=
  | no_entry w : spaces w → entries w []
  | an_entry s1 f s2 l s3 ds a w us :
      spaces s1 → name f → spaces s2 → s2 ≠ [] → name l → spaces s3 → s3 ≠ [] → numeral ds a → (a ≤ 2147483647)%Z →
      (∀ c, head w = Some c → spaces [c]) → entries w us → entries (s1 ++ f ++ s2 ++ l ++ s3 ++ ds ++ w) ((f, l, a) :: us).
End Spec.

Lemma space_spec c : space c = true ↔ spaces [c].
Proof.
  unfold spaces. rewrite Forall_singleton. rewrite <- (bool_decide_eq_true (c ∈ _)). destruct c as [[] [] [] [] [] [] [] []]; vm_compute; done.
Qed.
Lemma digit_spec c d : digit c = Some d ↔ ∃ k, digits !! k = Some c ∧ d = Z.of_nat k.
Proof.
  split.
  - intros H. exists (Z.to_nat d). destruct c as [[] [] [] [] [] [] [] []]; vm_compute in H; try done; injection H as <-; by vm_compute.
  - intros (k&Hk&->). do 10 (destruct k as [|k]; [vm_compute in Hk; injection Hk as <-; by vm_compute|]). done.
Qed.
Lemma digit_not_space c d : digit c = Some d → space c = false.
Proof. intros H. destruct c as [[] [] [] [] [] [] [] []]; vm_compute in H; try done. Qed.
Lemma digit_not_sign c d : digit c = Some d → c ≠ "-"%char ∧ c ≠ "+"%char.
Proof. intros H. split; intros ->; by vm_compute in H. Qed.
Lemma skip_spaces w w' : spaces w → skip (w ++ w') = skip w'.
Proof. induction 1 as [|c w Hc _ IH]; [done|]. simpl. assert (space c = true) as -> by (apply space_spec, Forall_singleton; done). done. Qed.
Lemma skip_stop w c w' : w = c :: w' → space c = false → skip w = w.
Proof. intros -> H. simpl. by rewrite H. Qed.
Lemma upto_name w w' : name w → (∀ c, head w' = Some c → spaces [c]) → upto (w ++ w') = (w, w').
Proof.
  intros [_ Hw] Hh. induction Hw as [|c w Hc _ IH]; simpl.
  - destruct w' as [|c w']; [done|]. simpl. by rewrite (proj2 (space_spec c) (Hh c eq_refl)).
  - destruct (space c) eqn:E; [by apply space_spec in E|]. by rewrite IH.
Qed.
Lemma name_skip w w' : name w → skip (w ++ w') = w ++ w' ∧ w ++ w' ≠ [].
Proof.
  intros [Hne Hw]. destruct w as [|c w]; [done|]. apply Forall_cons in Hw as [Hc _]. split; [|done]. eapply skip_stop; [done|].
  destruct (space c) eqn:E; [by apply space_spec in E|done].
Qed.
Lemma in_string_name s w w' t : spaces s → name w → (∀ c, head w' = Some c → spaces [c]) →
  in_string (Stream (s ++ w ++ w') false false) t = (w, Stream w' (Basic.ends w') false).
Proof.
  intros Hs Hw Hw'. unfold in_string, sentry. cbn [eof fail rest orb]. rewrite skip_spaces by done. destruct (name_skip w w' Hw) as [-> Hne].
  pose proof (upto_name w w' Hw Hw') as E'. destruct (w ++ w') as [|c r]; [done|]. by rewrite E'.
Qed.
Lemma numeral_ne w v : numeral w v → w ≠ [].
Proof. destruct 1; [done|]. by destruct w. Qed.
Lemma number_app w v : numeral w v → ∀ w' v0, number (w ++ w') v0 = (let '(r, b, w2) := number w' (v0 * 10 ^ Z.of_nat (length w) + v)%Z in (r, true, w2)).
Proof.
  induction 1 as [d c Hc|w v d c Hw IH Hc]; intros w' v0.
  - simpl app. cbn [number]. rewrite (proj2 (digit_spec c (Z.of_nat d))) by eauto. replace (v0 * 10 ^ Z.of_nat (length [c]) + Z.of_nat d)%Z with (10 * v0 + Z.of_nat d)%Z by (simpl length; lia). done.
  - rewrite <- app_assoc, IH. simpl app. cbn [number]. rewrite (proj2 (digit_spec c (Z.of_nat d))) by eauto.
    replace (v0 * 10 ^ Z.of_nat (length (w ++ [c])) + (10 * v + Z.of_nat d))%Z with (10 * (v0 * 10 ^ Z.of_nat (length w) + v) + Z.of_nat d)%Z; [by destruct (number w' _) as [[? ?] ?]|].
    rewrite app_length. simpl. rewrite Nat2Z.inj_add, Z.pow_add_r by lia. simpl (10 ^ Z.of_nat 1)%Z. lia.
Qed.
Lemma numeral_head w v : numeral w v → ∃ c w' d, w = c :: w' ∧ digit c = Some d.
Proof.
  induction 1 as [d c Hc|w v d c Hw (c'&w'&d'&->&Hd') Hc]; [exists c, [], (Z.of_nat d); split; [done|]; apply digit_spec; eauto|]. by exists c', (w' ++ [c]), d'.
Qed.
Lemma numeral_pos w v : numeral w v → (0 ≤ v)%Z.
Proof. induction 1; lia. Qed.
Lemma in_int_numeral s w v w' : spaces s → numeral w v → (v ≤ 2147483647)%Z → (∀ c, head w' = Some c → spaces [c]) →
  in_int (Stream (s ++ w ++ w') false false) = (Some v, Stream w' (Basic.ends w') false).
Proof.
  intros Hs Hw Hv Hw'. unfold in_int, sentry. cbn [eof fail rest orb]. rewrite skip_spaces by done.
  destruct (numeral_head w v Hw) as (c&w1&d&Ew&Hd). destruct (digit_not_sign c d Hd) as [H1 H2].
  assert (Esk : skip (w ++ w') = w ++ w') by (rewrite Ew; eapply skip_stop; [done|by eapply digit_not_space]). rewrite Esk.
  assert (Enum : number (w ++ w') 0 = (v, true, w')).
  { rewrite (number_app w v Hw). replace (0 * 10 ^ Z.of_nat (length w) + v)%Z with v by lia. destruct w' as [|c' w']; [done|]. cbn [number].
    destruct (digit c') as [d'|] eqn:Ed; [|done]. apply digit_not_space in Ed. specialize (Hw' c' eq_refl). apply space_spec in Hw'. congruence. }
  assert (Hsg : (match w ++ w' with "-"%char :: w => (true, w) | "+"%char :: w => (false, w) | _ => (false, w ++ w') end) = (false, w ++ w')).
  { rewrite Ew. simpl. clear -H1 H2. destruct c as [[] [] [] [] [] [] [] []]; try done; by (destruct H1 || destruct H2). }
  assert (Hmatch : ∀ {X} (a b : X), match w ++ w' with [] => a | _ => b end = b) by (intros; by rewrite Ew).
  rewrite Ew in *. cbn [app] in *. rewrite Hsg, Enum. cbn [negb]. pose proof (numeral_pos _ _ Hw).
  destruct (Z.ltb_spec int_max v); [unfold int_max in *; lia|]. destruct (Z.ltb_spec v (- int_max - 1)); [unfold int_max in *; lia|]. done.
Qed.
Lemma read_none w e fuel vs : spaces w → plain_read (S (S fuel)) (Stream w e false) vs = Some vs.
Proof.
  intros Hw. assert (∀ t, ∃ r e', in_string (Stream w e false) t = (t, Stream r e' true)) as Hin.
  { intros t. unfold in_string, sentry. cbn [eof fail rest orb]. destruct e; cbn; [by eexists _, _|]. rewrite <- (app_nil_r w), skip_spaces by done. by eexists _, _. }
  assert (∀ r e' t, in_string (Stream r e' true) t = (t, Stream r e' true)) as Hin2 by (intros r e' t; unfold in_string, sentry; cbn [eof fail rest]; by rewrite orb_true_r).
  assert (∀ r e', in_int (Stream r e' true) = (None, Stream r e' true)) as Hin3 by (intros r e'; unfold in_int, sentry; cbn [eof fail rest]; by rewrite orb_true_r).
  destruct (Hin []) as (r&e'&E). cbn [plain_read fail]. rewrite E, Hin2, Hin3. done.
Qed.
Lemma head_app_spaces s w c : spaces s → s ≠ [] → head (s ++ w) = Some c → spaces [c].
Proof. destruct s as [|d s]; [done|]. intros Hs _ [= <-]. apply Forall_cons in Hs as [? _]. by apply Forall_singleton. Qed.
Lemma read_entries txt us : entries txt us → ∀ fuel e vs, length txt + 2 ≤ fuel → (e = true → txt = []) → plain_read fuel (Stream txt e false) vs = Some (vs ++ us).
Proof.
  induction 1 as [w Hw|s1 f s2 l s3 ds a w us Hs1 Hf Hs2 Hn2 Hl Hs3 Hn3 Hds Ha Hw He IH]; intros fuel e vs Hfu Hem.
  - destruct fuel as [|[|fuel]]; [lia|lia|]. rewrite app_nil_r. by apply read_none.
  - assert (e = false) as ->. { destruct e; [|done]. specialize (Hem eq_refl). destruct s1; [|done]. destruct f; [by destruct Hf|done]. }
    assert (Hlen : length w + 4 ≤ length (s1 ++ f ++ s2 ++ l ++ s3 ++ ds ++ w)).
    { rewrite !app_length. destruct f; [by destruct Hf|]. destruct l; [by destruct Hl|]. destruct s2; [done|]. destruct s3; [done|]. simpl. lia. }
    destruct fuel as [|fuel]; [lia|]. cbn [plain_read fail].
    rewrite (in_string_name s1 f (s2 ++ l ++ s3 ++ ds ++ w) []) by (try done; intros c; by apply head_app_spaces).
    assert (E2 : Basic.ends (s2 ++ l ++ s3 ++ ds ++ w) = false) by (by destruct s2). rewrite E2.
    rewrite (in_string_name s2 l (s3 ++ ds ++ w) []) by (try done; intros c; by apply head_app_spaces).
    assert (E3 : Basic.ends (s3 ++ ds ++ w) = false) by (by destruct s3). rewrite E3.
    rewrite (in_int_numeral s3 ds a w) by done. cbn [fail]. rewrite IH; [by rewrite <- app_assoc|lia|]. by destruct w.
Qed.
Theorem C76_reads txt us : entries txt us →
  plain_main txt = match us with [] => None | (_, _, a) :: us' => Some ((λ u : person, if bool_decide (u.1 = (list_ascii_of_string "anna", list_ascii_of_string "jones"))
    then (list_ascii_of_string "anna", list_ascii_of_string "jones", 20%Z) else u) <$> (list_ascii_of_string "oleg", list_ascii_of_string "smith", a) :: us') end.
Proof. intros He. unfold plain_main. rewrite (read_entries txt us He) by (try done; lia). simpl. by destruct us as [|[[f l] a] us]. Qed.

(** ** The program with plain values *)
Notation leaf w := (Tree w []).
Section Plain.
  Context (nm : nat → var) (Hnm : ∀ i j, nm i = nm j → i = j) (grows : nat → growth) (thr : bool).
  Notation O := (option (list person)).
  Notation prog := (prog (A:=word) (L:=word) (O:=O)).
  Notation env := (gmap var (tree word)).
  Notation wp := (wp (O:=O) (named nm) wmakes thr).
  Notation have := (have nm).
  Notation may_throw := (may_throw grows thr).
  Implicit Types (M : env) (Q : O → env → Prop).
  (** a user with its objects and their values *)
  Notation both := (var * word * (var * word) * Z)%type.
  Definition uv (u : both) : var * var * Z := (u.1.1.1, u.1.2.1, u.2).
  Definition val (u : both) : person := (u.1.1.2, u.1.2.2, u.2).
  Definition objs (g : list both) : list (var * tree word) := g ≫= λ u, [(u.1.1.1, leaf u.1.1.2); (u.1.2.1, leaf u.1.2.2)].
  Lemma names_objs g : names (uv <$> g) = (objs g).*1.
  Proof. induction g as [|u g IH]; [done|]. change (names (uv <$> u :: g)) with (u.1.1.1 :: u.1.2.1 :: names (uv <$> g)). by rewrite IH. Qed.
  Lemma objs_app g g' : objs (g ++ g') = objs g ++ objs g'.
  Proof. apply bind_app. Qed.
  Lemma objs_cons u g : objs (u :: g) = (u.1.1.1, leaf u.1.1.2) :: (u.1.2.1, leaf u.1.2.2) :: objs g.
  Proof. done. Qed.
  Lemma lookup_have M l n x T : have M l n → (x, T) ∈ l → M !! x = Some T.
  Proof. intros (_&H&_). apply H. Qed.
  Lemma more_have M l n n' : have M l n → n ≤ n' → have M l n'.
  Proof. intros (Hd&H&Hn) Hle. split; [done|]. split; [done|]. intros x (i&->&?)%Hn. exists i. split; [done|lia]. Qed.
  Lemma set_have M l n x T U : have M ((x, T) :: l) n → have (<[x:=U]> M) ((x, U) :: l) n.
  Proof.
    intros (Hd&H&Hn). simpl in Hd. split; [done|]. split; [|done]. apply NoDup_cons in Hd as [Hx Hd]. intros y W. rewrite elem_of_cons.
    destruct (decide (y = x)) as [->|Hy].
    - rewrite lookup_insert. split; [intros [= ->]; by left|]. intros [[= ->]|HW]; [done|]. destruct Hx. apply elem_of_list_fmap. by exists (x, W).
    - rewrite lookup_insert_ne by done. rewrite H, elem_of_cons. split; intros [?|?]; [congruence|by right|congruence|by right].
  Qed.
  Lemma wp_threw xs M l n Q : have M l n → xs ≡ₚ l.*1 → Q None ∅ → wp (threw xs) M Q.
  Proof.
    intros Hh Hp HQ. destruct (Permutation_map_inv fst l Hp) as (l'&->&Hp'). unfold threw.
    eapply (wp_destroy_all nm wmakes thr l' M [] n); [rewrite app_nil_r; by eapply have_perm|]. intros M' ->%have_empty. done.
  Qed.

  Lemma wp_make2 f l M L n k g Q : have M L n →
    (∀ M', have M' ((nm n, leaf f) :: (nm (S n), leaf l) :: L) (S (S n)) → wp (k (nm n) (nm (S n)) (S (S n))) M' Q) →
    (∀ M' n', thr = true → have M' L n' → wp g M' Q) → wp (make2 nm f l n k g) M Q.
  Proof.
    intros Hh Hk Hg. unfold make2. cbn. split; [by exists n|]. split; [by eapply have_none|]. exists [], f. split; [constructor|]. split; [done|].
    split; [|intros Ht; by eapply Hg]. pose proof (have_new nm Hnm _ _ _ n (leaf f) Hh ltac:(lia)) as H1.
    split; [by exists (S n)|]. split; [by eapply have_none|]. exists [], l. split; [constructor|]. split; [done|]. split.
    - apply Hk. eapply have_perm; [|by eapply have_new]. apply Permutation_swap.
    - intros Ht. apply have_drop in H1 as [E H1]. exists (leaf f). split; [done|]. by eapply Hg.
  Qed.
  Lemma wp_set_to x T w M L n k g Q : have M ((x, T) :: L) n →
    (∀ M', have M' ((x, leaf w) :: L) (S n) → wp (k (S n)) M' Q) → (thr = true → wp g M Q) → wp (set_to nm x w n k g) M Q.
  Proof.
    intros Hh Hk Hg. unfold set_to. cbn. split; [by exists n|]. split; [by eapply have_none|]. exists [], w. split; [constructor|]. split; [done|]. split; [|done].
    pose proof (have_new nm Hnm _ _ _ n (leaf w) Hh ltac:(lia)) as H1. exists T, (leaf w). split; [eapply lookup_have; [exact H1|by right; left]|].
    split; [eapply lookup_have; [exact H1|by left]|]. apply (have_perm nm _ _ ((x, T) :: (nm n, leaf w) :: L)) in H1; [|apply Permutation_swap].
    apply (set_have _ _ _ _ _ (leaf w)) in H1. apply (have_perm nm _ _ ((nm n, leaf w) :: (x, leaf w) :: L)) in H1; [|apply Permutation_swap].
    apply have_drop in H1 as [E1 H1]. exists (leaf w). split; [exact E1|]. by apply Hk.
  Qed.
  Lemma wp_read_name x t st M L n k g Q : have M ((x, leaf t) :: L) n →
    (∀ M', have M' ((x, leaf (in_string st t).1) :: L) (S n) → wp (k (in_string st t).2 (S n)) M' Q) → (thr = true → wp g M Q) →
    wp (read_name nm x st n k g) M Q.
  Proof.
    intros Hh Hk Hg. unfold read_name. cbn. exists (leaf t), t, []. split; [eapply lookup_have; [exact Hh|by left]|]. split; [done|].
    destruct (in_string st t) as [t' st']. by eapply wp_set_to.
  Qed.
  Lemma wp_read_user x y st M L n k g Q xs : have M ((x, leaf []) :: (y, leaf []) :: L) n → g = threw xs → xs ≡ₚ x :: y :: L.*1 →
    (∀ M' n', have M' ((x, leaf (in_string st []).1) :: (y, leaf (in_string (in_string st []).2 []).1) :: L) n' →
      wp (k (in_int (in_string (in_string st []).2 []).2).1 (in_int (in_string (in_string st []).2 []).2).2 n') M' Q) →
    (thr = true → Q None ∅) → wp (read_user nm x y st n k g) M Q.
  Proof.
    intros Hh -> Hxs Hk Hq. unfold read_user. eapply wp_read_name; [exact Hh| |].
    - intros M1 H1. apply (have_perm nm _ _ ((y, leaf []) :: (x, leaf (in_string st []).1) :: L)) in H1; [|apply Permutation_swap].
      eapply wp_read_name; [exact H1| |].
      + intros M2 H2. apply (have_perm nm _ _ ((x, leaf (in_string st []).1) :: (y, leaf (in_string (in_string st []).2 []).1) :: L)) in H2; [|apply Permutation_swap].
        destruct (in_int (in_string (in_string st []).2 []).2) as [a st'] eqn:E. specialize (Hk M2 _ H2). by rewrite ?E in Hk.
      + intros Ht. eapply wp_threw; [exact H1| |auto]. rewrite Hxs. apply Permutation_swap.
    - intros Ht. eapply wp_threw; [exact Hh|done|auto].
  Qed.
  Lemma wp_copy_users h : ∀ M l n k Q, have M l n → (∀ z, z ∈ objs h → z ∈ l) →
    (∀ M' h' m, val <$> h' = val <$> h → have M' (objs h' ++ l) m → wp (k (uv <$> h') m) M' Q) → wp (copy_users nm (uv <$> h) n k) M Q.
  Proof.
    induction h as [|u h IH]; intros M l n k Q Hh Hz Hk; [by apply (Hk M [] n)|]. rewrite objs_cons in Hz. cbn.
    split; [by exists n|]. split; [by eapply have_none|]. exists (leaf u.1.1.2). split; [eapply lookup_have; [exact Hh|]; apply Hz; by left|].
    pose proof (have_new nm Hnm _ _ _ n (leaf u.1.1.2) Hh ltac:(lia)) as H1.
    split; [by exists (S n)|]. split; [by eapply have_none|]. exists (leaf u.1.2.2). split; [eapply lookup_have; [exact H1|]; right; apply Hz; by right; left|].
    pose proof (have_new nm Hnm _ _ _ (S n) (leaf u.1.2.2) H1 ltac:(lia)) as H2.
    eapply IH; [exact H2|intros z Hz'; right; right; apply Hz; by right; right|].
    intros M' h' m Hh' H3. apply (Hk M' ((nm n, u.1.1.2, (nm (S n), u.1.2.2), u.2) :: h') m); [by rewrite !fmap_cons, Hh'|].
    eapply have_perm; [|exact H3]. rewrite objs_cons. simpl. rewrite <- !Permutation_middle. apply Permutation_swap.
  Qed.
  Lemma wp_push_user g u M n k f Q : have M (objs g ++ objs [u]) n →
    (∀ M' g' m, val <$> g' = (val <$> g) ++ [val u] → have M' (objs g' ++ objs [u]) m → wp (k (uv <$> g') m) M' Q) → (may_throw → wp f M Q) →
    wp (push_user nm grows (uv <$> g) (uv u) n k f) M Q.
  Proof.
    intros Hh Hk Hf. unfold push_user. destruct (grows n) eqn:E; [| |apply Hf; right; eauto].
    - eapply (wp_copy_users [u]); [exact Hh|intros z Hz; apply elem_of_app; by right|]. intros M' h' m Hh' H1. rewrite <- fmap_app.
      apply Hk; [by rewrite fmap_app, Hh'|]. eapply have_perm; [|exact H1]. rewrite objs_app, !app_assoc. f_equiv. apply Permutation_app_comm.
    - eapply (wp_copy_users [u]); [exact Hh|intros z Hz; apply elem_of_app; by right|]. intros M' h' m Hh' H1.
      eapply (wp_copy_users g); [exact H1|intros z Hz; apply elem_of_app; right; apply elem_of_app; by left|]. intros M2 g' m2 Hg' H2.
      rewrite names_objs. eapply wp_destroy_all; [|intros M3 H3; rewrite <- fmap_app; apply Hk; [by rewrite fmap_app, Hh', Hg'|exact H3]].
      eapply have_perm; [|exact H2]. rewrite objs_app. rewrite (app_assoc (objs g')), (app_assoc _ (objs g)), (Permutation_app_comm _ (objs g)), !app_assoc. done.
  Qed.
  Lemma wp_read_all fuel : ∀ st g M n k Q vs, have M (objs g) n → plain_read fuel st (val <$> g) = Some vs →
    (∀ M' g' m, val <$> g' = vs → have M' (objs g') m → wp (k (uv <$> g') m) M' Q) → (may_throw → Q None ∅) →
    wp (read_all nm grows fuel st (uv <$> g) n k) M Q.
  Proof.
    induction fuel as [|fuel IH]; intros st g M n k Q vs Hh Hr Hk Hq; [done|]. cbn [plain_read read_all] in *. destruct (fail st); [injection Hr as <-; by eapply Hk|].
    destruct (in_string st []) as [f st1] eqn:E1. destruct (in_string st1 []) as [l st2] eqn:E2. destruct (in_int st2) as [a st3] eqn:E3.
    eapply wp_make2; [exact Hh| |].
    - intros M1 H1. eapply wp_read_user; [exact H1|done|by rewrite names_objs| |intros ->; apply Hq; by left].
      rewrite E1. cbn [fst snd]. rewrite E2. cbn [fst snd]. rewrite E3. cbn [fst snd]. intros M2 n2 H2.
      set (u := fun a => (nm n, f, (nm (S n), l), a) : both).
      destruct (fail st3).
      + eapply (wp_destroy_all nm wmakes thr (objs [u 0%Z]) M2 (objs g) n2); [exact H2|]. intros M3 H3. by eapply IH.
      + destruct a as [a|]; [|done]. apply (have_perm nm _ _ (objs g ++ objs [u a])) in H2; [|rewrite (Permutation_app_comm (objs g)); done].
        apply (wp_push_user g (u a) M2 n2); [exact H2| |].
        * intros M3 g' m Hg' H3. eapply (wp_destroy_all nm wmakes thr (objs [u a]) M3 (objs g') m); [eapply have_perm; [|exact H3]; apply Permutation_app_comm|].
          intros M4 H4. eapply IH; [exact H4|by rewrite Hg'|done|done].
        * intros Ht. eapply wp_threw; [exact H2| |by apply Hq]. rewrite names_objs, fmap_app. apply Permutation_app_comm.
    - intros M' n' Ht H'. eapply wp_threw; [exact H'|by rewrite names_objs|]. apply Hq. by left.
  Qed.
  Lemma wp_change_first u g f l M n k Q : have M (objs (u :: g)) n →
    (∀ M' m, have M' (objs ((u.1.1.1, f, (u.1.2.1, l), u.2) :: g)) m → wp (k m) M' Q) → (thr = true → Q None ∅) →
    wp (change_first nm (uv <$> u :: g) f l n k) M Q.
  Proof.
    intros Hh Hk Hq. rewrite objs_cons in Hh. unfold change_first. rewrite fmap_cons. cbn [uv]. eapply wp_set_to; [exact Hh| |].
    - intros M1 H1. apply (have_perm nm _ _ ((u.1.2.1, leaf u.1.2.2) :: (u.1.1.1, leaf f) :: objs g)) in H1; [|apply Permutation_swap].
      eapply wp_set_to; [exact H1| |].
      + intros M2 H2. apply Hk. eapply have_perm; [|exact H2]. apply Permutation_swap.
      + intros Ht. eapply wp_threw; [exact H1| |auto]. change (uv u :: (uv <$> g)) with (uv <$> u :: g). rewrite names_objs, objs_cons. apply Permutation_swap.
    - intros Ht. eapply wp_threw; [exact Hh| |auto]. change (uv u :: (uv <$> g)) with (uv <$> u :: g). by rewrite names_objs.
  Qed.
  Lemma wp_replace_users p anna g : ∀ M l n k Q, have M (objs g ++ l) n → (∀ z, z ∈ objs [p] ++ objs [anna] → z ∈ l) →
    (∀ M' g', val <$> g' = (λ v : person, if bool_decide (v.1 = (val p).1) then val anna else v) <$> (val <$> g) →
      have M' (objs g' ++ l) n → wp (k (uv <$> g')) M' Q) →
    wp (replace_users (uv <$> g) (uv p) (uv anna) k) M Q.
  Proof.
    induction g as [|u g IH]; intros M l n k Q Hh Hz Hk; [by apply (Hk M [])|]. rewrite fmap_cons. cbn [replace_users].
    assert (Hp1 : (p.1.1.1, leaf p.1.1.2) ∈ l) by (apply Hz; by left). assert (Hp2 : (p.1.2.1, leaf p.1.2.2) ∈ l) by (apply Hz; by right; left).
    assert (Ha1 : (anna.1.1.1, leaf anna.1.1.2) ∈ l) by (apply Hz; by right; right; left). assert (Ha2 : (anna.1.2.1, leaf anna.1.2.2) ∈ l) by (apply Hz; by right; right; right; left).
    rewrite objs_cons in Hh. simpl in Hh.
    assert (Hin : ∀ z, z ∈ l → z ∈ (u.1.1.1, leaf u.1.1.2) :: (u.1.2.1, leaf u.1.2.2) :: objs g ++ l) by (intros z H; right; right; apply elem_of_app; by right).
    assert (Hgo : ∀ M' u', have M' ((u'.1.1.1, leaf u'.1.1.2) :: (u'.1.2.1, leaf u'.1.2.2) :: objs g ++ l) n →
      (val u' = if bool_decide ((val u).1 = (val p).1) then val anna else val u) → wp (replace_users (uv <$> g) (uv p) (uv anna) (λ vs, k (uv u' :: vs))) M' Q).
    { intros M' u' H' Hu'. eapply (IH M' (objs [u'] ++ l)).
      - eapply have_perm; [|exact H']. simpl. by rewrite <- !Permutation_middle.
      - intros z Hz'. apply elem_of_app; right. by apply Hz.
      - intros M2 g' Hg' H2. rewrite <- fmap_cons. apply Hk; [by rewrite !fmap_cons, Hg', Hu'|]. eapply have_perm; [|exact H2]. rewrite objs_cons. simpl. by rewrite <- !Permutation_middle. }
    assert (Hkeep : (val u).1 ≠ (val p).1 → wp (replace_users (uv <$> g) (uv p) (uv anna) (λ vs, k (uv u :: vs))) M Q).
    { intros Hne. apply Hgo; [exact Hh|]. by rewrite bool_decide_false. }
    cbn. eexists _, _, _, _. split; [eapply lookup_have; [exact Hh|by left]|]. split; [done|]. split; [eapply lookup_have; [exact Hh|]; by apply Hin|]. split; [done|].
    intros [] Hb; [|apply Hkeep; intros [= E _]; destruct Hb as [_ Hb]; discriminate Hb; by rewrite E].
    cbn. eexists _, _, _, _. split; [eapply lookup_have; [exact Hh|by right; left]|]. split; [done|]. split; [eapply lookup_have; [exact Hh|]; by apply Hin|]. split; [done|].
    intros [] Hb2; [|apply Hkeep; intros [= _ E]; destruct Hb2 as [_ Hb2]; discriminate Hb2; by rewrite E].
    cbn. eexists _, _. split; [eapply lookup_have; [exact Hh|by left]|]. split; [eapply lookup_have; [exact Hh|]; by apply Hin|].
    pose proof (set_have _ _ _ _ _ (leaf anna.1.1.2) Hh) as H1. apply (have_perm nm _ _ ((u.1.2.1, leaf u.1.2.2) :: (u.1.1.1, leaf anna.1.1.2) :: objs g ++ l)) in H1; [|apply Permutation_swap].
    eexists _, _. split; [eapply lookup_have; [exact H1|by left]|]. split; [eapply lookup_have; [exact H1|]; right; right; apply elem_of_app; by right|].
    apply (set_have _ _ _ _ _ (leaf anna.1.2.2)) in H1. apply (have_perm nm _ _ ((u.1.1.1, leaf anna.1.1.2) :: (u.1.2.1, leaf anna.1.2.2) :: objs g ++ l)) in H1; [|apply Permutation_swap].
    apply (Hgo _ (u.1.1.1, anna.1.1.2, (u.1.2.1, anna.1.2.2), anna.2)); [exact H1|]. rewrite bool_decide_true; [done|].
    destruct Hb as [Hb _]. destruct Hb2 as [Hb2 _]. specialize (Hb eq_refl). specialize (Hb2 eq_refl). unfold val. cbn. congruence.
  Qed.
  Lemma wp_show_users g : ∀ M l n k Q, have M l n → (∀ z, z ∈ objs g → z ∈ l) → wp (k (val <$> g)) M Q → wp (show_users (uv <$> g) k) M Q.
  Proof.
    induction g as [|u g IH]; intros M l n k Q Hh Hz Hk; [done|]. rewrite objs_cons in Hz. cbn.
    eexists _, _, _. split; [eapply lookup_have; [exact Hh|]; apply Hz; by left|]. split; [done|].
    eexists _, _, _. split; [eapply lookup_have; [exact Hh|]; apply Hz; by right; left|]. split; [done|]. eapply IH; [exact Hh|intros z Hz'; apply Hz; by right; right|done].
  Qed.
  Lemma wp_main preds txt out : plain_main txt = Some out →
    wp (main nm grows preds txt) ∅ (λ o M, M = ∅ ∧ match o with Some out' => out' = out | None => may_throw end).
  Proof.
    unfold plain_main, main. destruct (plain_read _ _ _) as [vs|] eqn:Er; [|done]. intros Ho.
    apply (wp_read_all _ _ [] ∅ 0 _ _ vs); [apply have_nothing|done| |done]. intros M g n Hg Hh.
    destruct g as [|u g]; [by subst vs|]. rewrite fmap_cons in Hg. destruct vs as [|[[f0 l0] a] vs]; [done|]. injection Hg as Hu1 Hu2 Hu Hg. injection Ho as <-.
    apply wp_change_first; [exact Hh| |intros ->; split; [done|by left]]. intros M1 n1 H1.
    change (uv <$> u :: g) with (uv <$> (u.1.1.1, oleg, (u.1.2.1, smith), u.2) :: g). set (g1 := (u.1.1.1, oleg, (u.1.2.1, smith), u.2) :: g) in *.
    assert (Hg1 : val <$> g1 = (oleg, smith, a) :: vs) by (unfold g1; rewrite fmap_cons, Hg; unfold val at 1; cbn; congruence). clearbody g1.
    eapply wp_make2; [exact H1| |].
    2:{ intros M' n' Ht H'. eapply wp_threw; [exact H'|by rewrite names_objs|]. split; [done|by left]. }
    intros M2 H2. set (anna := (nm n1, first_of_anna, (nm (S n1), last_of_anna), 20%Z) : both).
    cbv zeta. change (nm n1, nm (S n1), 20%Z) with (uv anna). replace (replicate preds (uv anna)) with (uv <$> replicate preds anna) by (by rewrite fmap_replicate).
    eapply wp_copy_users; [exact H2| |].
    { intros z Hz. apply elem_of_list_bind in Hz as (v&Hz&Hv). apply elem_of_replicate in Hv as [-> _].
      apply elem_of_cons in Hz as [->|Hz]; [by left|]. apply elem_of_list_singleton in Hz as ->. by right; left. }
    intros M3 ps m Hps H3.
    assert (∃ p, match uv <$> ps with p :: _ => p | [] => uv anna end = uv p ∧ val p = val anna ∧ (∀ z, z ∈ objs [p] ++ objs [anna] → z ∈ objs [anna] ++ objs ps)) as (p&->&Hp&Hin).
    { destruct ps as [|p ps].
      - exists anna. split; [done|]. split; [done|]. intros z [Hz|Hz]%elem_of_app; apply elem_of_app; by left.
      - exists p. destruct preds as [|k]; [done|]. assert (Ev : Some (val p) = Some (val anna)) by apply (f_equal head Hps). split; [done|]. split; [congruence|].
        intros z [Hz|Hz]%elem_of_app; apply elem_of_app; [right|by left]. rewrite objs_cons. apply elem_of_cons in Hz as [->|Hz]; [by left|]. apply elem_of_list_singleton in Hz as ->. by right; left. }
    eapply (wp_replace_users p anna g1 M3 (objs [anna] ++ objs ps)); [|exact Hin|].
    { eapply have_perm; [|exact H3]. rewrite (Permutation_app_comm (objs ps)). simpl. by rewrite <- !Permutation_middle. }
    intros M4 g2 Hg2 H4. rewrite names_objs. eapply (wp_destroy_all nm wmakes thr (objs ps) M4 (objs (anna :: g2)) m).
    { eapply have_perm; [|exact H4]. rewrite objs_cons. simpl. rewrite <- !Permutation_middle. do 2 f_equiv. apply Permutation_app_comm. }
    intros M5 H5. eapply wp_show_users; [exact H5|intros z Hz; by right; right|].
    replace ([nm n1; nm (S n1)] ++ names (uv <$> g2)) with (objs (anna :: g2)).*1 by (by rewrite names_objs).
    eapply (wp_destroy_all nm wmakes thr _ M5 [] m); [by rewrite app_nil_r|]. intros M6 ->%have_empty. cbn. split; [done|].
    rewrite Hg2, Hg1, Hp. done.
  Qed.
End Plain.

(** ** Every text is read to an end *)
Lemma skip_le w : length (skip w) ≤ length w.
Proof. induction w as [|c w IH]; [done|]. simpl. destruct (space c); simpl; lia. Qed.
Lemma skip_head w c w' : skip w = c :: w' → space c = false.
Proof. induction w as [|d w IH]; [done|]. simpl. destruct (space d) eqn:E; [done|]. by intros [= <- <-]. Qed.
Lemma upto_le w : length (upto w).2 ≤ length w.
Proof. induction w as [|c w IH]; [done|]. simpl. destruct (space c); [simpl; lia|]. destruct (upto w). simpl in *. lia. Qed.
Lemma number_le w : ∀ v, length (number w v).2 ≤ length w.
Proof. induction w as [|c w IH]; intros v; [done|]. simpl. destruct (digit c) as [d|]; [|simpl; lia]. specialize (IH (10 * v + d)%Z). destruct (number w _) as [[? ?] ?]. simpl in *. lia. Qed.
Lemma in_string_less st t : fail (in_string st t).2 = false → length (rest (in_string st t).2) < length (rest st).
Proof.
  unfold in_string, sentry. destruct (eof st || fail st); [done|]. destruct (skip (rest st)) as [|c w] eqn:E; [done|]. simpl.
  pose proof (skip_le (rest st)) as Hl. rewrite E in Hl. simpl in Hl. rewrite (skip_head _ _ _ E). pose proof (upto_le w) as Hu. destruct (upto w) as [a b]. simpl in *. lia.
Qed.
Lemma in_string_failed st t : fail st = true → fail (in_string st t).2 = true.
Proof. intros E. unfold in_string, sentry. by rewrite E, orb_true_r. Qed.
Lemma in_int_less st : fail (in_int st).2 = false → fail st = false ∧ is_Some (in_int st).1 ∧ length (rest (in_int st).2) ≤ length (rest st).
Proof.
  unfold in_int, sentry. destruct (fail st) eqn:Ef; [by rewrite orb_true_r|]. rewrite orb_false_r. destruct (eof st); [done|].
  pose proof (skip_le (rest st)) as Hl. destruct (skip (rest st)) as [|c w] eqn:E; [done|]. intros H. split; [done|].
  match type of H with fail (let '(n, w) := ?X in _).2 = _ => assert (Hw : length X.2 ≤ length (rest st)); [|destruct X as [neg w0]] end.
  { destruct c as [[] [] [] [] [] [] [] []]; simpl in *; lia. }
  simpl in Hw. pose proof (number_le w0 0) as Hn. destruct (number w0 0) as [[v some] w1]. simpl in Hn. destruct some; [|done]. simpl in *.
  destruct (_ <? _)%Z; [done|]. destruct (_ <? _)%Z; [done|]. simpl in *. split; [by eexists|lia].
Qed.
Lemma read_total fuel : ∀ st vs, (if fail st then 0 else S (length (rest st))) < fuel → is_Some (plain_read fuel st vs).
Proof.
  induction fuel as [|fuel IH]; intros st vs Hf; [lia|]. cbn [plain_read]. destruct (fail st) eqn:Ef; [by eexists|].
  pose proof (in_string_less st []) as H1. destruct (in_string st []) as [f st1]. cbn [snd] in H1.
  pose proof (in_string_less st1 []) as H2. pose proof (in_string_failed st1 []) as F2. destruct (in_string st1 []) as [l st2]. cbn [snd] in H2, F2.
  pose proof (in_int_less st2) as H3. destruct (in_int st2) as [a st3]. cbn [fst snd] in H3. destruct (fail st3) eqn:E3.
  - apply IH. rewrite E3. lia.
  - destruct H3 as (E2&[a' ->]&H3); [done|]. specialize (H2 E2). destruct (fail st1) eqn:E1; [by rewrite F2 in E2|]. specialize (H1 eq_refl). apply IH. rewrite E3. lia.
Qed.
Theorem C76_total txt : is_Some (plain_read (S (S (length txt))) (Stream txt false false) []).
Proof. apply read_total. simpl. lia. Qed.

(** ** With flyweights *)
Section Machine.
  Context (FS : factory wkey) (HF : factory_spec weqk FS) (cfg : config) (t0 t : tid) (Ht : lck cfg = false → t = t0).
  Context (nm : nat → var) (Hnm : ∀ i j, nm i = nm j → i = j) (grows : nat → growth) (preds : nat).
  Notation state := (state (R:=wkey) (K:=wkey) (A:=word) FS).
  Notation own := (named nm).
  Notation reachable := (reachable wP FS cfg t0).
  Notation prun := (prun wP FS cfg fst t).
  Implicit Types s : state.
  Definition unused s : Prop := ∀ i, vars s !! nm i = None.
  Lemma unused_agrees s : unused s ↔ agrees wP FS fst own s ∅.
  Proof.
    split.
    - intros E. split; [intros x [i ->]; rewrite lookup_empty; apply E|intros x [? Hx]; by rewrite lookup_empty in Hx].
    - intros [E _] i. specialize (E (nm i) (ex_intro _ i eq_refl)). by rewrite lookup_empty in E.
  Qed.
  Theorem C76_main s txt out ls : plain_main txt = Some out →
    reachable s → stack s t = [] → unused s → Forall (foreign own t) ls → Forall (on_time cfg t0) ls →
    ∃ s' w p, prun (s, false, main nm grows preds txt) ls = Some (s', w, p) ∧ reachable s' ∧
      ∀ o, p = Ret o → w = false ∧ stack s' t = [] ∧ unused s' ∧ (o = Some out ∨ o = None).
  Proof.
    intros Ho Hre Hst Hun Hf Hon. pose proof (wp_main nm Hnm grows true preds txt out Ho) as Hw.
    destruct (C64_transparent wP FS cfg weqk (λ _, True) weqk_equivalence wP_ok HF t0 fst wP_keys own wmakes wmakes_make t Ht s (main nm grows preds txt) ∅ ls)
      as (s'&w&p&M&Hp&Hre'&Hr&Hw'); [done|done|by apply unused_agrees|by eapply (wp_safe _ _ _ _ _ wmakes_fun)|done|done|].
    exists s', w, p. split; [done|]. split; [done|]. intros o ->. destruct w; [by destruct Hw' as (?&?&?)|]. destruct Hw' as [Hst' Hag].
    pose proof (wp_steps own wmakes true wmakes_fun _ _ _ _ _ Hw Hr) as [-> Hr']. split; [done|]. split; [done|]. split; [by apply unused_agrees|].
    destruct o as [o|]; [left; by rewrite Hr'|by right].
  Qed.
  Theorem C76_completes s txt out : plain_main txt = Some out → (∀ n, grows n ≠ Fails) → reachable s → stack s t = [] → unused s →
    ∃ ls s', Forall (foreign own t) ls ∧ Forall (on_time cfg t0) ls ∧
      prun (s, false, main nm grows preds txt) ls = Some (s', false, Ret (Some out)) ∧
      reachable s' ∧ unused s' ∧ quiescent s' ∧ (trk cfg = true → vars s' = ∅ → heap s' = ∅).
  Proof.
    intros Ho Hg Hre Hst Hun.
    destruct (C64_completes wP FS cfg weqk (λ _, True) weqk_equivalence wP_ok HF t0 fst wP_keys own wmakes wmakes_make t Ht (main nm grows preds txt) s ∅)
      as (ls&s'&o&M&H1&H2&H3&Hr&Hre'&Hq&Hag); [done|done|by apply unused_agrees|by eapply (wp_safe _ _ _ _ _ wmakes_fun), wp_main|].
    pose proof (wp_steps own wmakes false wmakes_fun _ _ _ _ _ (wp_main nm Hnm grows false preds txt out Ho) Hr) as [-> Hr']. destruct o as [o|]; [|destruct Hr' as [?|[n Hn]]; [done|by destruct (Hg n)]].
    subst o. exists ls, s'. split; [by eapply quiet_foreign|]. split; [done|]. split; [done|]. split; [done|]. split; [by apply unused_agrees|]. split; [done|].
    intros Htr Hv. by eapply (empty_at_end wP FS cfg weqk (λ _, True) weqk_equivalence wP_ok HF t0).
  Qed.
End Machine.

(** ** Examples: the text of the program; a short one, while thread 2 keeps a name *)
Import Strings.String.
Definition line (s : string) : word := list_ascii_of_string s ++ ["010"%char].
Definition users_txt : word :=
  line "olegh smith 31" ++ line "john brown 28" ++ line "anna jones 45" ++ line "maria garcia 30" ++ line "john fox 56" ++ line "anna brown 19" ++
  line "thomas smith 46" ++ list_ascii_of_string "andrew martin 28".
Definition who (f l : string) (a : Z) : person := (list_ascii_of_string f, list_ascii_of_string l, a).
Example C76_shown : plain_main users_txt = Some
  [who "oleg" "smith" 31; who "john" "brown" 28; who "anna" "jones" 20; who "maria" "garcia" 30; who "john" "fox" 56; who "anna" "brown" 19;
   who "thomas" "smith" 46; who "andrew" "martin" 28].
Proof. vm_compute. reflexivity. Qed.
(** what cannot be read ends it; ages may have signs, up to the limits of int *)
Example C76_odd :
  plain_main (text "a b x c d 1") = None ∧ plain_main (text "a b -7 c d") = Some [who "oleg" "smith" (-7)] ∧
  plain_main (text "a b +2147483647 c d 2147483648 e f 1") = Some [who "oleg" "smith" 2147483647] ∧ plain_main (text "  ") = None ∧
  plain_main (text "a b 1c d 2") = Some [who "oleg" "smith" 1; who "c" "d" 2].
Proof. vm_compute. split_and!; reflexivity. Qed.
Example C76_entries : entries (text " x yy 1  anna jones 12 ") [who "x" "yy" 1; who "anna" "jones" 12].
Proof.
  assert (Hsp : ∀ w, forallb space w = true → spaces w).
  { intros w Hw. apply Forall_forall. intros c Hc. apply forallb_forall with (x := c) in Hw; [|by apply elem_of_list_In]. apply space_spec in Hw. by inversion Hw. }
  assert (Hnm : ∀ w, w ≠ [] → forallb (λ c, negb (space c)) w = true → name w).
  { intros w Hne Hw. split; [done|]. apply Forall_forall. intros c Hc. apply forallb_forall with (x := c) in Hw; [|by apply elem_of_list_In]. intros Hs%space_spec. by rewrite Hs in Hw. }
  apply (an_entry (text " ") (text "x") (text " ") (text "yy") (text " ") (text "1") 1 (text "  anna jones 12 ")); try (by apply Hsp); try (by apply Hnm); try done; try lia.
  { by apply (num_one 1). }
  { intros c [= <-]. by apply Hsp. }
  apply (an_entry (text "  ") (text "anna") (text " ") (text "jones") (text " ") (text "12") 12 (text " ")); try (by apply Hsp); try (by apply Hnm); try done; try lia.
  { by apply (num_more (text "1") 1 2); [apply (num_one 1)|]. }
  { intros c [= <-]. by apply Hsp. }
  apply no_entry. by apply Hsp.
Qed.
Definition bhash (k : wkey) : nat := List.length k.1.
Definition bFS : factory wkey := hashed_factory bhash weqk 1 igrow.
Definition bHF : factory_spec weqk bFS.
Proof.
  apply hashed_factory_spec; [apply weqk_equivalence|]. intros k l [H1%bool_decide_eq_true H2%bool_decide_eq_true]%andb_true_iff.
  unfold bhash. by rewrite H1.
Defined.
Definition even (n : nat) : var := 2 * n.
Definition growth3 (n : nat) : growth := if n mod 3 =? 0 then Moves else Fits.
Definition rounds (n i : nat) (b : bool) : list (clab (A:=word)) :=
  List.concat ((λ j, [Go; Env (LRun 1 (Choice (100 + 2 * (i + j)) b)); Env (LRun 2 (Choice (101 + 2 * (i + j)) false))]) <$> seq 0 n).
Definition meanwhile (n : nat) : list (clab (A:=word)) := [Env (LStart 2 (ONew 1 (text "anna") []))] ++ rounds n 0 false.
Definition at_end {O} (c : option (state (R:=wkey) (K:=wkey) (A:=word) bFS * bool * prog (A:=word) (L:=word) (O:=O))) : option (O * nat * list var) :=
  match c with
  | Some (s, false, Ret o) => Some (o, size (heap s), (map_to_list (vars s)).*1)
  | _ => None
  end.
Lemma meanwhile_foreign n : Forall (foreign (named even) 1) (meanwhile n).
Proof.
  unfold meanwhile. apply Forall_app_2; [|apply Forall_concat, Forall_fmap, Forall_forall; intros j _; repeat constructor; simpl; done].
  constructor; [|constructor]. intros _ x [j ->]; simpl; apply bool_decide_eq_false; unfold even; lia.
Qed.
Definition two_users : word := text " x yy 1  anna jones 12 ".
Example C76_at_work :
  plain_main two_users = Some [who "oleg" "smith" 1; who "anna" "jones" 20] ∧
  unused bFS even (init bFS) ∧ Forall (foreign (named even) 1) (meanwhile 600) ∧ Forall (on_time rc 1) (meanwhile 600) ∧
  at_end (prun wP bFS rc fst 1 (init bFS, false, main even growth3 2 two_users) (meanwhile 600)) = Some (Some [who "oleg" "smith" 1; who "anna" "jones" 20], 1, [1]).
Proof. split; [done|]. split; [done|]. split; [apply meanwhile_foreign|]. split; [apply Forall_forall; intros [l|] _; done|]. vm_compute. reflexivity. Qed.
(** an exception; no users at all: users[0] does not exist *)
Example C76_exception :
  at_end (prun wP bFS rc fst 1 (init bFS, false, main even growth3 2 two_users) (rounds 150 0 false ++ rounds 200 150 true)) = Some (None, 0, []).
Proof. vm_compute. reflexivity. Qed.
Example C76_nobody : plain_main (text " ") = None ∧ prun wP bFS rc fst 1 (init bFS, false, main even growth3 2 (text " ")) (rounds 600 0 false) = None.
Proof. vm_compute. split_and!; reflexivity. Qed.

Print Assumptions C76_reads.
Print Assumptions C76_total.
Print Assumptions C76_main.
Print Assumptions C76_completes.
