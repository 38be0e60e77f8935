(** The programs of [Composite.v] with plain values. *)
From Coq Require Import Ascii.
From Verif Require Import SerializeProofs Policies Instances.
From Verif Require Export Composite.

(** ** The values of lists *)
Definition lmakes (a : L) (n : nat) (l : L) : Prop := l = a ∧ (a = None ∨ n = 0).
Lemma lmakes_fun a n l l' : lmakes a n l → lmakes a n l' → l = l'.
Proof. intros [-> _] [-> _]. done. Qed.
Lemma lmakes_make a ks l : lmakes a (length ks) l → ∃ r, p_make lP a ks = Some r ∧ p_kids lP r = ks ∧ r.1 = l.
Proof.
  intros [-> H]. destruct a as [w|]; simpl; [|eauto]. destruct H as [?|H]; [done|]. apply nil_length_inv in H as ->. eauto.
Qed.
Lemma leqk_equivalence : equivalence leqk.
Proof.
  unfold leqk. split.
  - intros k. by rewrite !bool_decide_true.
  - intros k l [H1%bool_decide_eq_true H2%bool_decide_eq_true]%andb_true_iff. by rewrite !bool_decide_true.
  - intros k l m [H1%bool_decide_eq_true H2%bool_decide_eq_true]%andb_true_iff [H3%bool_decide_eq_true H4%bool_decide_eq_true]%andb_true_iff.
    by rewrite !bool_decide_true by congruence.
Qed.
Lemma lP_ok : policy_ok leqk (λ _, True) lP.
Proof. apply default_policy_ok. intros a ks k. unfold lmk. repeat case_match; intros; by simplify_eq. Qed.
Lemma lP_keys (r r' : lkey) : leqk (p_key lP r) (p_key lP r') = bool_decide (r.1 = r'.1) && bool_decide (p_kids lP r = p_kids lP r').
Proof. done. Qed.

(** the tokens of a tree; its lines *)
Fixpoint toks (T : tree L) : list token :=
  match T with
  | Tree (Some w) _ => [Word w]
  | Tree None ts => Open :: concat (map toks ts) ++ [Close]
  end.
Fixpoint lines (d : nat) (T : tree L) : list (nat * token) :=
  match T with
  | Tree (Some w) _ => [(d, Word w)]
  | Tree None ts => (d, Open) :: concat (map (lines (S d)) ts) ++ [(d, Close)]
  end.
(** the depth of the recursion that visits it *)
Fixpoint depth (T : tree L) : nat :=
  match T with Tree (Some _) _ => 1 | Tree None ts => S (max_list (map depth ts)) end.

(** each token at the number of parentheses that are open *)
Fixpoint layout (d : nat) (ts : list token) : list (nat * token) :=
  match ts with
  | [] => []
  | Open :: ts => (d, Open) :: layout (S d) ts
  | Close :: ts => (d - 1, Close) :: layout (d - 1) ts
  | Word w :: ts => (d, Word w) :: layout d ts
  end.
Lemma lines_layout T : ∀ d rest, layout d (toks T ++ rest) = lines d T ++ layout d rest.
Proof.
  induction T as [[w|] ts IH] using tree_ind'; intros d rest; [done|]. cbn [toks lines app layout]. f_equal. rewrite <- !app_assoc.
  assert (layout (S d) (concat (map toks ts) ++ [Close] ++ rest) = concat (map (lines (S d)) ts) ++ layout (S d) ([Close] ++ rest)) as ->.
  { induction IH as [|T ts HT _ IHt]; [done|]. cbn [map concat]. rewrite <- !app_assoc, HT, IHt. done. }
  cbn [app layout]. rewrite Nat.sub_succ, Nat.sub_0_r. done.
Qed.
Lemma max_list_le (ns : list nat) n : n ∈ ns → n ≤ max_list ns.
Proof. induction ns as [|m ns IH]; [by intros ?%elem_of_nil|]. intros [->|H]%elem_of_cons; simpl; [lia|]. apply IH in H. lia. Qed.
Lemma depth_toks T : depth T ≤ length (toks T).
Proof.
  induction T as [[w|] ts IH] using tree_ind'; cbn [depth toks length]; [lia|]. rewrite app_length. simpl.
  assert (max_list (map depth ts) ≤ length (concat (map toks ts))); [|lia].
  induction IH as [|T ts HT _ IHt]; [done|]. simpl. rewrite app_length. lia.
Qed.

(** ** The programs *)
Section Wps.
  Context {O : Type} (nm : nat → var) (Hnm : ∀ i j, nm i = nm j → i = j) (grows : nat → growth) (thr : bool).
  Notation prog := (prog (A:=L) (L:=L) (O:=O)).
  Notation env := (gmap var (tree L)).
  Notation wp := (wp (O:=O) (named nm) lmakes thr).
  Notation have := (have nm).
  Notation may_throw := (may_throw grows thr).
  Notation have_perm := (have_perm nm).
  Notation have_none := (have_none nm Hnm).
  Notation have_new := (have_new nm Hnm).
  Notation have_drop := (have_drop nm).
  Notation have_empty := (have_empty nm).
  Notation have_vals := (have_vals nm).
  Notation wp_destroy_all := (wp_destroy_all nm lmakes thr).
  Notation wp_push_back := (wp_push_back nm Hnm grows lmakes thr).
  Implicit Types (M : env) (Q : O → env → Prop).

  (** ** The parser *)
  Fixpoint ptree (ts : list token) (fs : list (list (tree L))) (cur : list (tree L)) : err + tree L :=
    match ts with
    | [] => match fs with [] => inr (Tree None cur) | _ => inl UnmatchedOpen end
    | Open :: ts => ptree ts (cur :: fs) []
    | Close :: ts => match fs with [] => inl UnmatchedClose | up :: fs => ptree ts fs (up ++ [Tree None cur]) end
    | Word w :: ts => ptree ts fs (cur ++ [Tree (Some w) []])
    end.
  Notation names := (fmap (M:=list) (fmap (M:=list) fst)).
  Notation trees := (fmap (M:=list) (fmap (M:=list) (snd (A:=var) (B:=tree L)))).
  Lemma names_concat (fs : list (list (var * tree L))) : concat (names fs) = (concat fs).*1.
  Proof. induction fs as [|f fs IH]; [done|].
    change (f.*1 ++ concat (names fs) = (f ++ concat fs).*1). by rewrite IH, fmap_app.
  Qed.
  Lemma wp_parse ts : ∀ fs cur M n k e Q, have M (cur ++ concat fs) n →
    (∀ M' x T m, ptree ts (trees fs) cur.*2 = inr T → have M' [(x, T)] m → wp (k x m) M' Q) →
    (∀ M' er, M' = ∅ → ptree ts (trees fs) cur.*2 = inl er ∨ (er = Threw ∧ may_throw) → wp (e er) M' Q) →
    wp (parse nm grows ts (names fs) cur.*1 n k e) M Q.
  Proof.
    induction ts as [|[| |w] ts IH]; intros fs cur M n k e Q Hh Hk He.
    - assert (Hen : ∀ m M' er, have M' [] m → ptree [] (trees fs) cur.*2 = inl er ∨ (er = Threw ∧ may_throw) → wp (e er) M' Q).
      { intros m M' er Hm Her. apply He; [by eapply have_empty|done]. }
      destruct fs as [|f fs]; cbn [parse fmap list_fmap].
      + simpl in Hh. rewrite app_nil_r in Hh. cbn. split; [by exists n|]. split; [by eapply have_none|].
        exists cur.*2, None. split; [eapply have_vals; [done|auto]|]. split; [by split; [|left]|]. split.
        * eapply (wp_destroy_all cur _ [(nm n, Tree None cur.*2)]); [eapply have_perm; [|by eapply have_new]; apply Permutation_cons_append|].
          intros M' HM'. by eapply Hk.
        * intros Hthr. eapply (wp_destroy_all cur _ []); [by rewrite app_nil_r|]. intros M' HM'. eapply Hen; [done|]. right. split; [done|by left].
      + change (wp (destroy_all (cur.*1 ++ concat (names (f :: fs))) (e UnmatchedOpen)) M Q). rewrite names_concat, <- fmap_app.
        eapply (wp_destroy_all _ _ []); [by rewrite app_nil_r|]. intros M' HM'. eapply Hen; [done|by left].
    - change (wp (parse nm grows ts (names (cur :: fs)) (fmap fst (@nil (var * tree L))) n k e) M Q). by apply (IH (cur :: fs) []).
    - destruct fs as [|up fs].
      + cbn [parse fmap list_fmap]. simpl in Hh. eapply (wp_destroy_all _ _ []); [done|]. intros M' HM'. apply He; [by eapply have_empty|by left].
      + cbn [concat] in Hh. cbn. split; [by exists n|]. split; [by eapply have_none|].
        exists cur.*2, None. split; [eapply have_vals; [done|intros z Hz; apply elem_of_app; by left]|]. split; [by split; [|left]|]. split.
        * eapply (wp_destroy_all cur _ (up ++ (nm n, Tree None cur.*2) :: concat fs)).
          { eapply have_perm; [|by eapply have_new]. rewrite (app_assoc cur up), (app_assoc cur up). apply Permutation_middle. }
          intros M' HM'. eapply wp_push_back; [exact HM'|..].
          -- intros M2 ys m Hys H2. cbn. apply (have_perm _ _ ((nm n, Tree None cur.*2) :: ys ++ concat fs)) in H2; [|symmetry; apply Permutation_middle].
             apply have_drop in H2 as [Hn H2]. exists (Tree None cur.*2). split; [done|]. apply IH; [done|..].
             ++ intros M3 x T m' HT. rewrite Hys in HT. by apply Hk.
             ++ intros M3 er H3 Her. rewrite Hys in Her. by apply He.
          -- intros Hmay. change (up.*1 ++ concat (names fs)) with (concat (names (up :: fs))). rewrite names_concat.
             eapply (wp_destroy_all ((nm n, Tree None cur.*2) :: concat (up :: fs)) _ []).
             { eapply have_perm; [|exact HM']. rewrite app_nil_r. symmetry. apply Permutation_middle. }
             intros M2 H2. apply He; [by eapply have_empty|by right].
        * intros Hthr. change (up.*1 ++ concat (names fs)) with (concat (names (up :: fs))). rewrite names_concat, <- fmap_app.
          eapply (wp_destroy_all _ _ []); [by rewrite app_nil_r|]. intros M' HM'. apply He; [by eapply have_empty|]. right. split; [done|by left].
    - cbn. split; [by exists n|]. split; [by eapply have_none|]. exists [], (Some w). split; [done|]. split; [by split; [|right]|]. split.
      + assert (Hh' : have (<[nm n:=Tree (Some w) []]> M) (cur ++ (nm n, Tree (Some w) []) :: concat fs) (S n)).
        { eapply have_perm; [|by eapply have_new]. apply Permutation_middle. }
        eapply wp_push_back; [exact Hh'|..].
        * intros M2 ys m Hys H2. cbn. apply (have_perm _ _ ((nm n, Tree (Some w) []) :: ys ++ concat fs)) in H2; [|symmetry; apply Permutation_middle].
          apply have_drop in H2 as [Hn H2]. exists (Tree (Some w) []). split; [done|]. apply IH; [done|..].
          -- intros M3 x T m' HT. rewrite Hys in HT. by apply Hk.
          -- intros M3 er H3 Her. rewrite Hys in Her. by apply He.
        * intros Hmay. rewrite names_concat, <- fmap_app.
          eapply (wp_destroy_all ((nm n, Tree (Some w) []) :: cur ++ concat fs) _ []).
          { eapply have_perm; [|exact Hh']. rewrite app_nil_r. symmetry. apply Permutation_middle. }
          intros M2 H2. apply He; [by eapply have_empty|by right].
      + intros Hthr. rewrite names_concat, <- fmap_app. eapply (wp_destroy_all _ _ []); [by rewrite app_nil_r|].
        intros M' HM'. apply He; [by eapply have_empty|]. right. split; [done|by left].
  Qed.

  (** ** The printer *)
  Lemma wp_print stuck d : ∀ M x W path T nest out k Q, M !! x = Some W → subtree W path = Some T → depth T ≤ d →
    wp (k (out ++ lines nest T)) M Q → wp (print stuck d x path nest out k) M Q.
  Proof.
    induction d as [|d IH]; intros M x W path [[w|] ts] nest out k Q Hx HT Hd Hk; cbn [depth] in Hd; try lia.
    - cbn. by exists W, (Some w), ts.
    - cbn [print Client.wp]. exists W, None, ts. split; [done|]. split; [done|]. cbn beta iota.
      assert (Hgo : ∀ us j out', us = drop j ts →
        wp (k (out' ++ concat (map (lines (S nest)) us) ++ [(nest, Close)])) M Q →
        wp ((fix go (js : list nat) (out : list (nat * token)) : prog :=
               match js with
               | [] => k (out ++ [(nest, Close)])
               | j :: js => print stuck d x (path ++ [j]) (S nest) out (go js)
               end) (seq j (length us)) out') M Q).
      { induction us as [|U us IHu]; intros j out' Hus Hw; [done|]. cbn [length seq].
        assert (HU : ts !! j = Some U) by (rewrite <- (Nat.add_0_r j), <- lookup_drop, <- Hus; done).
        apply (IH _ _ W _ U); [done| | |].
        - rewrite subtree_snoc, HT. simpl. by rewrite HU.
        - assert (depth U ≤ max_list (map depth ts)); [|lia]. apply max_list_le, elem_of_list_fmap. exists U. split; [done|]. by eapply elem_of_list_lookup_2.
        - apply IHu; [|by rewrite <- app_assoc; cbn [map concat] in Hw; rewrite <- app_assoc in Hw].
          rewrite <- (Nat.add_1_r j), <- drop_drop, <- Hus. done. }
      apply (Hgo ts 0); [done|]. cbn [lines] in Hk. by rewrite <- app_assoc.
  Qed.
End Wps.
