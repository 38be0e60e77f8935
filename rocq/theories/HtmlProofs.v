(** The programs of [HtmlProg.v] with plain values. *)
From Coq Require Import Ascii.
From Verif Require Import SerializeProofs Policies Instances.
From Verif Require Export HtmlProg.
From Verif Require Import Factory.

Definition hmakes (a : H) (n : nat) (l : H) : Prop := l = a ∧ match a with HTag _ => n = 0 | HCtx => True | HChr _ => n = 1 end.
Lemma hmakes_fun a n l l' : hmakes a n l → hmakes a n l' → l = l'.
Proof. intros [-> _] [-> _]. done. Qed.
Lemma hmakes_make a ks l : hmakes a (length ks) l → ∃ r, p_make hP a ks = Some r ∧ p_kids hP r = ks ∧ r.1 = l.
Proof.
  intros [-> Hn]. destruct a as [t| |c]; simpl; [|eauto|].
  - apply nil_length_inv in Hn as ->. eauto.
  - destruct ks as [|k [|? ?]]; [done| |done]. eauto.
Qed.
Lemma heqk_equivalence : equivalence heqk.
Proof.
  unfold heqk. split.
  - intros k. by rewrite !bool_decide_true.
  - intros k l [H1%bool_decide_eq_true H2%bool_decide_eq_true]%andb_true_iff. by rewrite !bool_decide_true.
  - intros k l m [H1%bool_decide_eq_true H2%bool_decide_eq_true]%andb_true_iff [H3%bool_decide_eq_true H4%bool_decide_eq_true]%andb_true_iff.
    by rewrite !bool_decide_true by congruence.
Qed.
Lemma hP_ok : policy_ok heqk (λ _, True) hP.
Proof. apply default_policy_ok. intros a ks k. unfold hmk. repeat case_match; intros; by simplify_eq. Qed.
Lemma hP_keys (r r' : hkey) : heqk (p_key hP r) (p_key hP r') = bool_decide (r.1 = r'.1) && bool_decide (p_kids hP r = p_kids hP r').
Proof. done. Qed.

(** the values *)
Definition tag_tree (t : tag) : tree H := Tree (HTag t) [].
Definition ctx_tree (c : list tag) : tree H := Tree HCtx (tag_tree <$> c).
Definition chr_tree (x : chr) : tree H := Tree (HChr x.1) [ctx_tree x.2].
Global Instance tag_tree_inj : Inj (=) (=) tag_tree.
Proof. by intros ?? [= ->]. Qed.
Global Instance ctx_tree_inj : Inj (=) (=) ctx_tree.
Proof. intros c c' [= E]. by apply (inj (fmap tag_tree)) in E. Qed.
Global Instance chr_tree_inj : Inj (=) (=) chr_tree.
Proof. intros [c cs] [c' cs'] [= -> E]. by apply (inj (fmap tag_tree)) in E as ->. Qed.

Lemma parse_tag_shorter cs : ∀ buf q ty t rest, parse_tag cs buf q = Some (ty, t, rest) → length rest < length cs.
Proof.
  induction cs as [|c cs IH]; intros buf q ty t rest; cbn [parse_tag]; [done|].
  destruct (_ && _); [destruct (tag_of buf) as [[? ?]|]; [|done]; intros [= <- <- <-]; simpl; lia|]. intros E%IH. simpl. lia.
Qed.

Section Wps.
  Context {O : Type} (nm : nat → var) (Hnm : ∀ i j, nm i = nm j → i = j) (grows : nat → growth) (thr : bool).
  Notation prog := (prog (A:=H) (L:=H) (O:=O)).
  Notation env := (gmap var (tree H)).
  Notation wp := (wp (O:=O) (named nm) hmakes thr).
  Notation have := (have nm).
  Notation may_throw := (may_throw grows thr).
  Notation have_perm := (have_perm nm).
  Notation have_none := (have_none nm Hnm).
  Notation have_new := (have_new nm Hnm).
  Notation have_drop := (have_drop nm).
  Notation have_empty := (have_empty nm).
  Notation have_vals := (have_vals nm).
  Notation wp_destroy_all := (wp_destroy_all nm hmakes thr).
  Notation wp_push_back := (wp_push_back nm Hnm grows hmakes thr).
  Implicit Types (M : env) (Q : O → env → Prop).

  Lemma have_lookup M l n x T : have M l n → (x, T) ∈ l → M !! x = Some T.
  Proof. intros (_&H&_). apply H. Qed.
  Lemma have_more M l n n' : have M l n → n ≤ n' → have M l n'.
  Proof. intros (Hd&H&Hn) Hle. split; [done|]. split; [done|]. intros x (i&->&?)%Hn. exists i. split; [done|lia]. Qed.
  Lemma have_set M l n x T U : have M ((x, T) :: l) n → have (<[x:=U]> M) ((x, U) :: l) n.
  Proof.
    intros (Hd&H&Hn). simpl in Hd. split; [done|]. split; [|done]. apply NoDup_cons in Hd as [Hx Hd]. intros y W. rewrite elem_of_cons.
    destruct (decide (y = x)) as [->|Hy].
    - rewrite lookup_insert. split; [intros [= ->]; by left|]. intros [[= ->]|HW]; [done|]. destruct Hx. apply elem_of_list_fmap. by exists (x, W).
    - rewrite lookup_insert_ne by done. rewrite H, elem_of_cons. split; intros [?|?]; [congruence|by right|congruence|by right].
  Qed.
  Lemma wp_destroy_out xs M n p Q : have M xs n → wp p ∅ Q → wp (destroy_all xs.*1 p) M Q.
  Proof.
    intros Hh Hp. eapply (wp_destroy_all _ _ []); [by rewrite app_nil_r|]. intros M' HM'%have_empty. by subst.
  Qed.

  (** ** The scanner *)
  Lemma pop_none name ts : (∀ t, t ∈ ts → t.1 ≠ name) → pop name ts = ts.
  Proof.
    intros Hn. unfold pop. destruct (list_find _ _) as [[i t]|] eqn:E; [|done]. apply list_find_Some in E as (E&Ht&_).
    destruct (Hn t); [|done]. apply elem_of_reverse. by eapply elem_of_list_lookup_2.
  Qed.
  Lemma pop_some name ts t us : t.1 = name → (∀ u, u ∈ us → u.1 ≠ name) → pop name (ts ++ t :: us) = ts.
  Proof.
    intros Ht Hn. unfold pop. destruct (list_find _ _) as [[i u]|] eqn:E.
    - apply list_find_Some in E as (E&Hu&Hj). rewrite reverse_app, reverse_cons in E, Hj.
      assert (i = length us) as ->.
      { destruct (lt_eq_lt_dec i (length us)) as [[Hi|Hi]|Hi]; [|done|].
        - rewrite <- app_assoc, lookup_app_l in E by (by rewrite reverse_length). destruct (Hn u); [|done]. apply elem_of_reverse. by eapply elem_of_list_lookup_2.
        - destruct (Hj (length us) t); [|done|done]. rewrite <- app_assoc, lookup_app_r by (by rewrite reverse_length). by rewrite reverse_length, Nat.sub_diag. }
      rewrite app_length. simpl. replace (length ts + S (length us) - S (length us)) with (length ts) by lia. apply take_app.
    - apply list_find_None in E. rewrite Forall_forall in E. destruct (E t); [|done]. apply elem_of_reverse, elem_of_app. right. by left.
  Qed.
  Lemma wp_seek res t M Q : M !! res = Some (tag_tree t) → ∀ rev ts tail tts k,
    (∀ x T, (x, T) ∈ rev → M !! x = Some T) → rev.*2 = tag_tree <$> ts → (∀ u, u ∈ tts → u.1 ≠ t.1) → tail.*2 = tag_tree <$> tts →
    (∀ front back, reverse rev ++ tail = front ++ back → front.*2 = tag_tree <$> pop t.1 (reverse ts ++ tts) →
       wp (k (Some (front.*1, back.*1))) M Q) →
    (pop t.1 (reverse ts ++ tts) = reverse ts ++ tts → wp (k None) M Q) →
    wp (seek res rev.*1 tail.*1 k) M Q.
  Proof.
    intros Hres. induction rev as [|[x T] rev IH]; intros ts tail tts k Hl Hts Htts Htail Hk Hk0.
    - destruct ts; [|done]. cbn. apply Hk0. by apply pop_none.
    - destruct ts as [|u ts]; [done|]. injection Hts as HT Hts. cbn. exists T, (HTag u), []. split; [apply Hl; by left|]. split; [by subst T|].
      exists (tag_tree t), (HTag t), []. split; [done|]. split; [done|]. cbn [tag_in]. rewrite !reverse_cons, <- !app_assoc in Hk. rewrite !reverse_cons, <- !app_assoc in Hk0.
      destruct (decide (u.1 = t.1)) as [E|E].
      + assert (Hrv : reverse rev.*1 = (reverse rev).*1) by (by rewrite fmap_reverse). rewrite Hrv.
        apply (Hk (reverse rev) ((x, T) :: tail)); [done|]. simpl. rewrite pop_some by done. rewrite !fmap_reverse. f_equal. exact Hts.
      + apply (IH ts ((x, T) :: tail) (u :: tts)); [intros y U Hy; apply Hl; by right|done| | | |].
        * intros v [->|Hv]%elem_of_cons; [done|by apply Htts].
        * change (T :: tail.*2 = tag_tree u :: (tag_tree <$> tts)). by rewrite Htail, HT.
        * intros front back E' Hf. by apply (Hk front back).
        * exact Hk0.
  Qed.

  Lemma wp_emit c ctx ts out : ∀ M m go threw Q, have M (ctx ++ out) m → ctx.*2 = tag_tree <$> ts →
    (∀ M' out' m', out'.*2 = out.*2 ++ [chr_tree (c, ts)] → have M' (ctx ++ out') m' → wp (go out'.*1 m') M' Q) →
    (may_throw → wp threw ∅ Q) → wp (emit nm grows c ctx.*1 out.*1 m go threw) M Q.
  Proof.
    intros M m go threw Q Hh Hts Hgo Hthr. unfold emit. cbn. split; [by exists m|]. split; [by eapply have_none|].
    exists ctx.*2, HCtx. split; [eapply have_vals; [done|intros z Hz; apply elem_of_app; by left]|]. split; [done|].
    assert (Hc : Tree HCtx ctx.*2 = ctx_tree ts) by (by rewrite Hts). rewrite Hc.
    pose proof (have_new _ _ _ m (ctx_tree ts) Hh ltac:(lia)) as H1. split.
    - split; [by exists (S m)|]. split; [by eapply have_none|]. exists [ctx_tree ts], (HChr c).
      split; [constructor; [eapply have_lookup; [done|by left]|constructor]|]. split; [done|].
      pose proof (have_new _ _ _ (S m) (chr_tree (c, ts)) H1 ltac:(lia)) as H2. split.
      + apply (have_perm _ _ (out ++ (nm (S m), chr_tree (c, ts)) :: (nm m, ctx_tree ts) :: ctx)) in H2.
        2: { rewrite <- Permutation_middle. f_equiv. rewrite <- Permutation_middle. f_equiv. apply Permutation_app_comm. }
        eapply wp_push_back; [exact H2| |].
        * intros M' ys m' Hys Hh'. cbn. apply (have_perm _ _ ((nm (S m), chr_tree (c, ts)) :: (nm m, ctx_tree ts) :: ctx ++ ys)) in Hh'.
          2: { rewrite <- Permutation_middle. f_equiv. rewrite <- Permutation_middle. f_equiv. apply Permutation_app_comm. }
          apply have_drop in Hh' as [E1 Hh']. eexists. split; [exact E1|]. apply have_drop in Hh' as [E2 Hh']. eexists. split; [exact E2|]. by apply Hgo.
        * intros Hmay. pose proof (wp_destroy_out ((nm (S m), chr_tree (c, ts)) :: (nm m, ctx_tree ts) :: ctx ++ out)) as Hd.
          rewrite !fmap_cons, fmap_app in Hd. eapply Hd; [|by apply Hthr]. eapply have_perm; [|exact H2].
          rewrite <- Permutation_middle. f_equiv. rewrite <- Permutation_middle. f_equiv. apply Permutation_app_comm.
      + intros Ht. pose proof (wp_destroy_out ((nm m, ctx_tree ts) :: ctx ++ out)) as Hd. rewrite !fmap_cons, fmap_app in Hd. eapply Hd; [done|apply Hthr; by left].
    - intros Ht. rewrite <- fmap_app. eapply wp_destroy_out; [done|apply Hthr; by left].
  Qed.

  Lemma wp_scan n : ∀ html ctx ts out M m k past threw Q, have M (ctx ++ out) m → ctx.*2 = tag_tree <$> ts → length html ≤ n →
    (∀ M' out' m' cs, scan n html ts = Some cs → out'.*2 = out.*2 ++ (chr_tree <$> cs) → have M' out' m' → wp (k out'.*1 m') M' Q) →
    (∀ M', scan n html ts = None → wp past M' Q) → (may_throw → wp threw ∅ Q) →
    wp (scan_p nm grows n html ctx.*1 out.*1 m k past threw) M Q.
  Proof.
    induction n as [|n IH]; intros html ctx ts out M m k past threw Q Hh Hts Hlen Hk Hpast Hthr.
    { destruct html; [|simpl in Hlen; lia]. cbn. eapply wp_destroy_all; [done|]. intros M' HM'. apply (Hk M' out m []); [done|by rewrite app_nil_r|done]. }
    destruct html as [|c rest]; [cbn; eapply wp_destroy_all; [done|]; intros M' HM'; apply (Hk M' out m []); [done|by rewrite app_nil_r|done]|].
    simpl in Hlen.
    (* a character *)
    assert (Hem : ∀ c' rest' M m, have M (ctx ++ out) m → length rest' ≤ n →
      (∀ o, scan n rest' ts = o → scan (S n) (c :: rest) ts = (cons (c', ts) <$> o)) →
      wp (emit nm grows c' ctx.*1 out.*1 m (λ out m, scan_p nm grows n rest' ctx.*1 out m k past threw) threw) M Q).
    { clear M m Hh. intros c' rest' M m Hh Hl Hs. eapply wp_emit; [done|done| |done]. intros M' out' m' Hout' Hh'.
      eapply IH; [exact Hh'|done|done| | |done].
      - intros M2 out2 m2 cs Hcs Hout2 H2. eapply (Hk M2 out2 m2 ((c', ts) :: cs)); [by rewrite (Hs _ Hcs)| |done]. rewrite Hout2, Hout', <- app_assoc. done.
      - intros M2 Hn. apply Hpast. by rewrite (Hs _ Hn). }
    cbn [scan_p]. destruct (decide (c = "<"%char)) as [->|Hc].
    2: { apply Hem; [done|lia|]. intros o <-. cbn [scan]. by rewrite decide_False. }
    destruct (parse_tag rest [] false) as [[[ty t] rest']|] eqn:Ep.
    - pose proof (parse_tag_shorter _ _ _ _ _ _ Ep) as Hsh.
      cbn. split; [by exists m|]. split; [by eapply have_none|]. exists [], (HTag t). split; [done|]. split; [done|].
      change (Tree (HTag t) []) with (tag_tree t). pose proof (have_new _ _ _ m (tag_tree t) Hh ltac:(lia)) as H1. split.
      + destruct ty.
        * apply (have_perm _ _ (ctx ++ (nm m, tag_tree t) :: out)) in H1; [|apply Permutation_middle].
          eapply wp_push_back; [exact H1| |].
          -- intros M' ys m' Hys Hh'. cbn. apply (have_perm _ _ ((nm m, tag_tree t) :: ys ++ out)) in Hh'; [|symmetry; apply Permutation_middle].
             apply have_drop in Hh' as [E Hh']. eexists. split; [exact E|]. apply (IH rest' ys (ts ++ [t])); [done|by rewrite Hys, Hts, fmap_app|lia| | |done].
             ++ intros M2 out2 m2 cs Hcs. apply Hk. cbn [scan]. by rewrite decide_True, Ep.
             ++ intros M2 Hn. apply Hpast. cbn [scan]. by rewrite decide_True, Ep.
          -- intros Hmay. pose proof (wp_destroy_out ((nm m, tag_tree t) :: ctx ++ out)) as Hd. rewrite fmap_cons, fmap_app in Hd.
             eapply Hd; [|by apply Hthr]. eapply have_perm; [|exact H1]. symmetry. apply Permutation_middle.
        * assert (Hrv : reverse ctx.*1 = (reverse ctx).*1) by (by rewrite fmap_reverse). rewrite Hrv.
          assert (Hgo : ∀ keep M' m', keep.*2 = tag_tree <$> pop t.1 ts → have M' (keep ++ out) m' → wp (scan_p nm grows n rest' keep.*1 out.*1 m' k past threw) M' Q).
          { intros keep M' m' Hkeep Hh'. apply (IH rest' keep (pop t.1 ts)); [done|done|lia| | |done].
            - intros M2 out2 m2 cs Hcs. apply Hk. cbn [scan]. by rewrite decide_True, Ep.
            - intros M2 Hn. apply Hpast. cbn [scan]. by rewrite decide_True, Ep. }
          eapply (wp_seek (nm m) t _ Q ltac:(eapply have_lookup; [exact H1|by left]) (reverse ctx) (reverse ts) [] []).
          -- intros x T Hx. eapply have_lookup; [exact H1|]. right. apply elem_of_app. left. by apply elem_of_reverse.
          -- by rewrite !fmap_reverse, Hts.
          -- intros u Hu. by apply elem_of_nil in Hu.
          -- done.
          -- rewrite !reverse_involutive, !app_nil_r. intros front back -> Hf.
             eapply (wp_destroy_all back _ ((nm m, tag_tree t) :: front ++ out)).
             { eapply have_perm; [|exact H1]. rewrite <- Permutation_middle. f_equiv. rewrite (app_assoc back). f_equiv. apply Permutation_app_comm. }
             intros M' HM'. cbn. apply have_drop in HM' as [E HM']. eexists. split; [exact E|]. by apply Hgo.
          -- rewrite !reverse_involutive, !app_nil_r. intros Hp. cbn. apply have_drop in H1 as [E H1]. eexists. split; [exact E|]. apply Hgo; [by rewrite Hp|done].
      + intros Ht. rewrite <- fmap_app. eapply wp_destroy_out; [done|apply Hthr; by left].
    - cbn. split; [by exists m|]. split; [by eapply have_none|]. exists [], (HTag ([], [])). split; [done|]. split; [done|]. split.
      + pose proof (have_new _ _ _ m (tag_tree ([], [])) Hh ltac:(lia)) as H1. apply have_drop in H1 as [E H1]. eexists. split; [exact E|].
        destruct rest as [|c rest]; [apply Hpast; cbn [scan]; by rewrite decide_True, Ep|]. simpl in Hlen. apply Hem; [done|lia|].
        intros o <-. cbn [scan]. by rewrite decide_True, Ep.
      + intros Ht. rewrite <- fmap_app. eapply wp_destroy_out; [done|apply Hthr; by left].
  Qed.

  (** ** Reversing *)
  Lemma wp_reverse n : ∀ xs l M m p Q, have M (xs ++ l) m → length xs ≤ n →
    (∀ M' ys, ys.*1 = xs.*1 → ys.*2 = reverse xs.*2 → have M' (ys ++ l) m → wp p M' Q) → wp (reverse_p n xs.*1 p) M Q.
  Proof.
    induction n as [|n IH]; intros xs l M m p Q Hh Hl Hp; (destruct xs as [|[x T] xs]; [by apply (Hp M [])|]); simpl in Hl; [lia|].
    destruct xs as [|[y U] xs _] using rev_ind; [by apply (Hp M [(x, T)])|]. rewrite app_length in Hl. simpl in Hl.
    cbn [reverse_p fmap list_fmap fst]. rewrite fmap_app. cbn [fmap list_fmap fst]. rewrite last_snoc.
    rewrite app_length, fmap_length. simpl. replace (length xs + 1 - 1) with (length xs) by lia. rewrite take_app_alt by (by rewrite fmap_length).
    simpl in Hh. rewrite <- app_assoc in Hh. simpl in Hh. apply (have_perm _ _ ((x, T) :: (y, U) :: xs ++ l)) in Hh.
    2: { f_equiv. symmetry. apply Permutation_middle. }
    exists T, U. split; [eapply have_lookup; [done|by left]|]. split; [eapply have_lookup; [done|by right; left]|].
    apply (have_set _ _ _ _ _ U) in Hh. apply (have_perm _ _ ((y, U) :: (x, U) :: xs ++ l)) in Hh; [|apply Permutation_swap].
    apply (have_set _ _ _ _ _ T) in Hh. apply (have_perm _ _ (xs ++ (y, T) :: (x, U) :: l)) in Hh.
    2: { rewrite <- (Permutation_middle xs (_ :: l)), <- (Permutation_middle xs l). done. }
    eapply IH; [exact Hh|lia|]. intros M' ys Hy1 Hy2 Hh'. apply (Hp M' ((x, U) :: ys ++ [(y, T)])).
    - by rewrite !fmap_cons, !fmap_app, Hy1.
    - rewrite !fmap_cons, !fmap_app, Hy2. simpl. by rewrite reverse_cons, reverse_app.
    - eapply have_perm; [|exact Hh']. simpl. rewrite <- app_assoc. simpl. rewrite <- (Permutation_middle ys (_ :: l) (y, T)), <- (Permutation_middle ys l (x, U)), <- (Permutation_middle ys l (y, T)). apply Permutation_swap.
  Qed.

  (** ** Changing contexts *)
  Lemma sub_tag T p f j t : subtree T p = Some (ctx_tree f) → f !! j = Some t → subtree T (p ++ [j]) = Some (tag_tree t).
  Proof. intros HT Ht. rewrite subtree_snoc, HT. simpl. by rewrite list_lookup_fmap, Ht. Qed.
  Lemma wp_close a p T f M Q : M !! a = Some T → subtree T p = Some (ctx_tree f) → ∀ js ts out k, Forall2 (λ j t, f !! j = Some t) js ts →
    wp (k (out ++ concat (map print_closing ts))) M Q → wp (close_p a p js out k) M Q.
  Proof.
    intros Ha HT js ts out k Hj. revert out. induction Hj as [|j t js ts Hjt _ IH]; intros out Hk; [simpl in *; by rewrite app_nil_r in Hk|].
    cbn. exists T, (HTag t), []. split; [done|]. split; [by eapply sub_tag|]. apply IH. cbn [map concat] in Hk. by rewrite app_assoc in Hk.
  Qed.
  Lemma wp_open b q U t M Q : M !! b = Some U → subtree U q = Some (ctx_tree t) → ∀ js ts out k, Forall2 (λ j u, t !! j = Some u) js ts →
    wp (k (out ++ concat (map print_opening ts))) M Q → wp (open_p b q js out k) M Q.
  Proof.
    intros Hb HU js ts out k Hj. revert out. induction Hj as [|j u js ts Hju _ IH]; intros out Hk; [simpl in *; by rewrite app_nil_r in Hk|].
    cbn. exists U, (HTag u), []. split; [done|]. split; [by eapply sub_tag|]. apply IH. cbn [map concat] in Hk. by rewrite app_assoc in Hk.
  Qed.
  Lemma wp_skip a p T f b q U t M Q : M !! a = Some T → subtree T p = Some (ctx_tree f) → M !! b = Some U → subtree U q = Some (ctx_tree t) →
    ∀ f' t' pre k, f = pre ++ f' → t = pre ++ t' →
    (∀ pre2 f2 t2, f = pre2 ++ f2 → t = pre2 ++ t2 → unshare f' t' = (f2, t2) → wp (k (length pre2)) M Q) →
    wp (skip_p a p b q (length pre) (length f' `min` length t') k) M Q.
  Proof.
    intros Ha HT Hb HU. induction f' as [|x f' IH]; intros t' pre k Hf Ht Hk; [by eapply Hk|].
    destruct t' as [|y t']; [by eapply Hk|]. cbn [length Nat.min skip_p].
    assert (Hx : f !! length pre = Some x) by (by rewrite Hf, list_lookup_middle). assert (Hy : t !! length pre = Some y) by (by rewrite Ht, list_lookup_middle).
    cbn. exists T, U, (tag_tree x), (tag_tree y). split; [done|]. split; [by eapply sub_tag|]. split; [done|]. split; [by eapply sub_tag|].
    intros e He. cbn [unshare] in Hk. destruct e.
    - assert (x = y) as -> by (apply (inj tag_tree); by apply He). rewrite decide_True in Hk by done.
      replace (S (length pre)) with (length (pre ++ [y])) by (rewrite app_length; simpl; lia).
      apply IH; [by rewrite <- app_assoc|by rewrite <- app_assoc|]. intros pre2 f2 t2 E1 E2 E3. by eapply Hk.
    - rewrite decide_False in Hk; [by eapply Hk|]. intros ->. by assert (false = true) by (by apply He).
  Qed.
  Lemma seq_tags (f pre f2 : list tag) : f = pre ++ f2 → Forall2 (λ j t, f !! j = Some t) (seq (length pre) (length f - length pre)) f2.
  Proof.
    intros ->. rewrite app_length. replace (length pre + length f2 - length pre) with (length f2) by lia. apply Forall2_same_length_lookup_2; [by rewrite seq_length|].
    intros i j t Hj Ht. apply lookup_seq in Hj as [-> Hi]. by rewrite lookup_app_r, Nat.add_comm, Nat.add_sub by lia.
  Qed.
  Lemma wp_change a p T f b q U t M out k Q : M !! a = Some T → subtree T p = Some (ctx_tree f) → M !! b = Some U → subtree U q = Some (ctx_tree t) →
    wp (k (out ++ change f t)) M Q → wp (change_p a p b q out k) M Q.
  Proof.
    intros Ha HT Hb HU Hk. unfold change_p. cbn [Client.wp]. exists T, HCtx, (tag_tree <$> f). split; [done|]. split; [done|].
    exists U, HCtx, (tag_tree <$> t). split; [done|]. split; [done|]. rewrite !fmap_length.
    eapply (wp_skip a p T f b q U t M Q Ha HT Hb HU f t []); [done|done|]. intros pre f2 t2 Ef Et Eu.
    eapply (wp_close a p T f M Q Ha HT _ (reverse f2)); [by apply Forall2_reverse, seq_tags|]. eapply (wp_open b q U t M Q Hb HU _ t2); [by apply seq_tags|].
    unfold change in Hk. rewrite Eu in Hk. by rewrite app_assoc in Hk.
  Qed.

  (** ** Producing *)
  Lemma wp_produce xs : ∀ cs ctx c l M m out k threw Q, have M ((ctx, ctx_tree c) :: l) m → (∀ z, z ∈ xs → z ∈ l) → xs.*2 = chr_tree <$> cs →
    (∀ M' m', have M' l m' → wp (k (out ++ produce cs c)) M' Q) → (∀ M' m', have M' l m' → thr = true → wp threw M' Q) →
    wp (produce_p nm xs.*1 ctx m out k threw) M Q.
  Proof.
    induction xs as [|[x X] xs IH]; intros cs ctx c l M m out k threw Q Hh Hxs Hcs Hk Hthr.
    - destruct cs; [|done]. cbn. split; [by exists m|]. split; [by eapply have_none|]. exists [], HCtx. split; [done|]. split; [done|].
      pose proof (have_new _ _ _ m (ctx_tree []) Hh ltac:(lia)) as H1. split.
      + eapply (wp_change ctx [] (ctx_tree c) c (nm m) [] (ctx_tree []) []); [eapply have_lookup; [exact H1|by right; left]|done|eapply have_lookup; [exact H1|by left]|done|].
        cbn. apply have_drop in H1 as [E1 H1]. eexists. split; [exact E1|]. apply have_drop in H1 as [E2 H1]. eexists. split; [exact E2|]. by eapply Hk.
      + intros Ht. apply have_drop in Hh as [E1 H2]. eexists. split; [exact E1|]. by eapply Hthr.
    - destruct cs as [|[d e] cs]; [done|]. injection Hcs as HX Hcs. cbn [fmap list_fmap fst produce_p].
      assert (Hx : ∀ M m, have M ((ctx, ctx_tree c) :: l) m → M !! x = Some X) by (intros M' m' Hh'; eapply have_lookup; [done|]; right; apply Hxs; by left).
      assert (Hgo : ∀ M m out, have M ((ctx, ctx_tree e) :: l) m → (∀ M' m', have M' l m' → wp (k (out ++ d :: produce cs e)) M' Q) →
        wp (Look x [] (λ l _, produce_p nm xs.*1 ctx m (out ++ [code_in l]) k threw)) M Q).
      { clear M m out Hh Hk Hx. intros M m out Hh Hk. cbn. exists X, (HChr d), [ctx_tree e]. split; [eapply have_lookup; [done|]; right; apply Hxs; by left|].
        split; [by subst X|]. eapply (IH cs ctx e l); [exact Hh|intros z Hz; apply Hxs; by right|done| |done]. intros M' m' HM'. rewrite <- app_assoc. by eapply Hk. }
      cbn [produce] in Hk. exists X, (ctx_tree c), (ctx_tree e), (ctx_tree c). split; [by eapply Hx|]. split; [by subst X|].
      split; [eapply have_lookup; [done|by left]|]. split; [done|]. intros b Hb. destruct b.
      + assert (e = c) as -> by (apply (inj ctx_tree); by apply Hb). rewrite decide_True in Hk by done. by apply Hgo.
      + rewrite decide_False in Hk by (intros ->; by assert (false = true) by (by apply Hb)).
        eapply (wp_change ctx [] (ctx_tree c) c x [0] X e); [eapply have_lookup; [done|by left]|done|by eapply Hx|by subst X|].
        cbn. split; [by exists m|]. split; [by eapply have_none|]. exists X, (ctx_tree e). split; [by eapply Hx|]. split; [by subst X|].
        pose proof (have_new _ _ _ m (ctx_tree e) Hh ltac:(lia)) as H1. exists (ctx_tree c), (ctx_tree e).
        split; [eapply have_lookup; [exact H1|by right; left]|]. split; [eapply have_lookup; [exact H1|by left]|].
        apply (have_perm _ _ ((ctx, ctx_tree c) :: (nm m, ctx_tree e) :: l)) in H1; [|apply Permutation_swap].
        apply (have_set _ _ _ _ _ (ctx_tree e)) in H1. apply (have_perm _ _ ((nm m, ctx_tree e) :: (ctx, ctx_tree e) :: l)) in H1; [|apply Permutation_swap].
        apply have_drop in H1 as [E1 H1]. eexists. split; [exact E1|]. apply Hgo; [done|]. intros M' m' HM'. specialize (Hk M' m' HM'). by rewrite app_assoc in Hk.
  Qed.
End Wps.

(** ** main *)
Section Main.
  Context (nm : nat → var) (Hnm : ∀ i j, nm i = nm j → i = j) (grows : nat → growth) (thr : bool).
  Notation env := (gmap var (tree H)).
  Lemma wp_main html : wp (named nm) hmakes thr (main nm grows html) ∅
    (λ o M, match o with
            | Wrote w => M = ∅ ∧ ∃ cs, scan_html html = Some cs ∧ w = produce_html (shuffle cs)
            | Past => scan_html html = None
            | Threw => M = ∅ ∧ may_throw grows thr
            end).
  Proof.
    unfold main. apply (wp_scan nm Hnm grows thr (length html) html [] [] []); [apply have_nothing|done|done| |by intros M' E|by intros E].
    intros M xs m cs Hcs Hxs Hh. simpl in Hxs. cbn zeta. rewrite fmap_length. set (q := length xs / 4).
    assert (Hlen : length xs = length cs) by (by rewrite <- (fmap_length snd xs), Hxs, fmap_length).
    rewrite <- fmap_drop, <- fmap_take. set (mid := take (3 * q - q) (drop q xs)).
    assert (Hsplit : xs = take q xs ++ mid ++ drop (3 * q) xs).
    { unfold mid. rewrite <- (take_drop q xs) at 1. f_equal. rewrite <- (take_drop (3 * q - q) (drop q xs)) at 1. f_equal. rewrite drop_drop. f_equal. lia. }
    eapply (wp_reverse nm thr (length xs) mid (take q xs ++ drop (3 * q) xs)).
    { eapply (have_perm nm); [|exact Hh]. rewrite Hsplit at 1. rewrite !app_assoc. f_equiv. apply Permutation_app_comm. }
    { unfold mid. rewrite take_length, drop_length. lia. }
    intros M' ys Hy1 Hy2 Hh'. set (zs := take q xs ++ ys ++ drop (3 * q) xs).
    assert (Hz1 : xs.*1 = zs.*1) by (unfold zs; rewrite Hsplit at 1; by rewrite !fmap_app, Hy1).
    assert (Hz2 : zs.*2 = chr_tree <$> shuffle cs).
    { unfold zs, shuffle. rewrite !fmap_app, Hy2. unfold mid. rewrite <- Hlen. fold q. rewrite fmap_reverse, !fmap_take, !fmap_drop, Hxs. done. }
    assert (Hz : have nm M' zs m) by (eapply (have_perm nm); [|exact Hh']; unfold zs; rewrite !app_assoc; f_equiv; apply Permutation_app_comm).
    clearbody zs. rewrite Hz1. cbn. split; [by exists m|]. split; [by eapply (have_none nm Hnm)|]. exists [], HCtx. split; [done|]. split; [done|]. split.
    - pose proof (have_new nm Hnm _ _ _ m (ctx_tree []) Hz ltac:(lia)) as H1.
      eapply (wp_produce nm Hnm thr zs (shuffle cs) (nm m) [] zs); [exact H1|auto|done| |].
      + intros M2 m2 H2. eapply (wp_destroy_out nm thr); [exact H2|]. cbn. split; [done|]. eauto.
      + intros M2 m2 H2 Ht. eapply (wp_destroy_out nm thr); [exact H2|]. cbn. split; [done|by left].
    - intros Ht. eapply (wp_destroy_out nm thr); [exact Hz|]. cbn. split; [done|by left].
  Qed.
  Lemma wp_scan_main html : wp (named nm) hmakes thr (scan_main nm grows html) ∅
    (λ o M, match o with
            | Some xs => ∃ cs l m, scan_html html = Some cs ∧ xs = l.*1 ∧ l.*2 = chr_tree <$> cs ∧ have nm M l m
            | None => scan_html html = None ∨ M = ∅ ∧ may_throw grows thr
            end).
  Proof.
    unfold scan_main. apply (wp_scan nm Hnm grows thr (length html) html [] [] []); [apply have_nothing|done|done| | |].
    - intros M xs m cs Hcs Hxs Hh. cbn. by exists cs, xs, m.
    - intros M E. cbn. by left.
    - intros E. cbn. by right.
  Qed.
End Main.
