(** C69: example/parallel.cpp.  The threads together find the words of the text,
    whatever their number; in every schedule each element of the vector ends up
    with its word, with one entry for each different word. *)
From Coq Require Import Ascii String Sorted.
From Verif Require Import SerializeProofs CoreRace Policies Instances PropInner Client PropClient PropTeam ParallelProofs.
From Verif Require Import Factory.

(** ** The text *)
Theorem C69_tokenize txt first last : first ≤ last → last ≤ length txt →
  ∃ l, tokenize txt first last = Some l ∧ words_in txt first last l ∧ ∀ l', words_in txt first last l' → l' = l.
Proof. intros H1 H2. destruct (tokenize_words txt first last H1 H2) as (l&E&Hl). exists l. split; [done|]. split; [done|]. intros l' Hl'. by eapply words_in_fun. Qed.
Theorem C69_chunks txt n : 1 ≤ n →
  ∃ css, chunks txt n = Some css ∧ length css = n ∧ tokenize txt 0 (length txt) = Some (concat css).
Proof.
  intros Hn. destruct n as [|k]; [lia|]. destruct (chunks_words txt k 0) as (css&E&Hl&Hw); [lia|]. exists css. split; [done|]. split; [done|].
  destruct (tokenize_words txt 0 (length txt)) as (l&El&Hl'); [lia|lia|]. rewrite El. f_equal. by eapply words_in_fun.
Qed.

(** The words are what one would read, as texts and not as positions *)
Definition alphabet : word := list_ascii_of_string "abcdefghijklmnopqrstuvwxyzABCDEFGHIJKLMNOPQRSTUVWXYZ".
Inductive reads : word → list word → Prop :=
| reads_end : reads [] []
| reads_other c txt ws : c ∉ alphabet → reads txt ws → reads (c :: txt) ws
| reads_word w txt ws : w ≠ [] → Forall (.∈ alphabet) w → (∀ c, head txt = Some c → c ∉ alphabet) → reads txt ws → reads (w ++ txt) (w :: ws).
Lemma letter_alphabet c : letter c = true ↔ c ∈ alphabet.
Proof. rewrite <- (bool_decide_eq_true (c ∈ alphabet)). destruct c as [[] [] [] [] [] [] [] []]; vm_compute; done. Qed.
Lemma reads_inv txt ws : reads txt ws → (txt = [] ∧ ws = []) ∨ (∃ c t, txt = c :: t ∧ c ∉ alphabet ∧ reads t ws) ∨
  ∃ w t ws', txt = w ++ t ∧ ws = w :: ws' ∧ w ≠ [] ∧ Forall (.∈ alphabet) w ∧ (∀ c, head t = Some c → c ∉ alphabet) ∧ reads t ws'.
Proof. destruct 1 as [|c t ws Hc Hr|w t ws Hw Ha Hh Hr]; [by left|right; left; by exists c, t|right; right; by exists w, t, ws]. Qed.
Lemma reads_fun txt ws : reads txt ws → ∀ ws', reads txt ws' → ws' = ws.
Proof.
  induction 1 as [|c txt ws Hc _ IH|w txt ws Hw Ha Hh _ IH]; intros ws' H'; apply reads_inv in H' as [(E&->)|[(c'&t&E&Hc'&Hr)|(w'&t&ws''&E&->&Hw'&Ha'&Hh'&Hr)]].
  - done.
  - done.
  - by destruct w'.
  - done.
  - simplify_eq. by apply IH.
  - destruct w' as [|d w']; [done|]. simplify_eq/=. by apply Forall_cons in Ha' as [? _].
  - by destruct w.
  - destruct w as [|d w]; [done|]. simplify_eq/=. by apply Forall_cons in Ha as [? _].
  - assert (w' = w ∧ t = txt) as [-> ->]; [|by rewrite (IH _ Hr)]. clear -Ha Ha' Hh Hh' E. revert w' Ha' E. induction w as [|c w IH]; intros [|c' w'] Ha' E; simpl in E.
    + by subst.
    + subst. apply Forall_cons in Ha' as [? _]. by destruct (Hh c' eq_refl).
    + subst. apply Forall_cons in Ha as [? _]. by destruct (Hh' c eq_refl).
    + injection E as -> E. apply Forall_cons in Ha as [_ Ha]. apply Forall_cons in Ha' as [_ Ha']. by destruct (IH Ha w' Ha' E) as [-> ->].
Qed.
Lemma tok_reads txt : ∀ fuel first, first ≤ length txt → length txt - first < fuel →
  (∃ l, tok fuel txt first (length txt) None = Some l ∧ reads (drop first txt) (text_at txt <$> l)) ∧
  ∀ b, b < first → Forall (.∈ alphabet) (take (first - b) (drop b txt)) →
    ∃ l, tok fuel txt first (length txt) (Some b) = Some l ∧ reads (drop b txt) (text_at txt <$> l).
Proof.
  induction fuel as [|fuel IH]; intros first H1 H2; [lia|]. cbn [tok]. destruct (Nat.eqb_spec first (length txt)) as [->|Hne].
  - split; [exists []; split; [done|]; rewrite drop_all; constructor|]. intros b Hb Ha. exists [(b, length txt)]. split; [done|]. cbn. unfold text_at. cbn.
    assert (E : take (length txt - b) (drop b txt) = drop b txt) by (apply take_ge; rewrite drop_length; lia). rewrite E in *.
    rewrite <- (app_nil_r (drop b txt)) at 1. constructor; [|done|done|constructor]. intros E'. apply (f_equal length) in E'. rewrite drop_length in E'. simpl in E'. lia.
  - destruct (lookup_lt_is_Some_2 txt first) as [c Hc]; [lia|]. rewrite Hc. destruct (IH (S first)) as [I1 I2]; [lia|lia|].
    assert (Ed : drop first txt = c :: drop (S first) txt) by (by apply drop_S). destruct (letter c) eqn:El.
    + apply letter_alphabet in El. split.
      * destruct (I2 first) as (l&E&Hl); [lia| |eauto]. rewrite Ed. replace (S first - first) with 1 by lia. by apply Forall_singleton.
      * intros b Hb Ha. apply I2; [lia|]. replace (S first - b) with (S (first - b)) by lia.
        rewrite (take_S_r _ _ c); [apply Forall_app; split; [done|by apply Forall_singleton]|]. rewrite lookup_drop. by replace (b + (first - b)) with first by lia.
    + assert (Hn : c ∉ alphabet) by (intros H%letter_alphabet; congruence). destruct I1 as (l&E&Hl). split.
      * exists l. split; [done|]. rewrite Ed. by constructor.
      * intros b Hb Ha. exists ((b, first) :: l). rewrite E. split; [done|]. cbn. change (text_at txt (b, first)) with (take (first - b) (drop b txt)).
        assert (E' : drop b txt = take (first - b) (drop b txt) ++ c :: drop (S first) txt).
        { rewrite <- Ed. rewrite <- (take_drop (first - b) (drop b txt)) at 1. rewrite drop_drop. by replace (b + (first - b)) with first by lia. }
        rewrite E' at 1. constructor; [|done|by intros d [= ->]|by constructor].
        intros E2. apply (f_equal length) in E2. rewrite take_length, drop_length in E2. simpl in E2. lia.
Qed.
Theorem C69_words txt : ∃ l, tokenize txt 0 (length txt) = Some l ∧ reads txt (text_at txt <$> l) ∧ ∀ ws, reads txt ws → ws = text_at txt <$> l.
Proof.
  destruct (tok_reads txt (S (length txt)) 0) as [(l&E&Hl) _]; [lia|lia|]. exists l. split; [done|]. split; [done|]. by apply reads_fun.
Qed.

(** ** The program with plain values *)
Definition wmakes (a : word) (n : nat) (l : word) : Prop := l = a ∧ n = 0.
Lemma wmakes_fun a n l l' : wmakes a n l → wmakes a n l' → l = l'.
Proof. by intros [-> _] [-> _]. Qed.
Lemma wmakes_make a ks l : wmakes a (length ks) l → ∃ r, p_make wP a ks = Some r ∧ p_kids wP r = ks ∧ r.1 = l.
Proof. intros [-> _]. by exists (a, ks). Qed.
Lemma weqk_equivalence : equivalence weqk.
Proof.
  unfold weqk. split.
  - intros k. by rewrite !bool_decide_true.
  - intros k l [H1%bool_decide_eq_true H2%bool_decide_eq_true]%andb_true_iff. by rewrite !bool_decide_true.
  - intros k l m [H1%bool_decide_eq_true H2%bool_decide_eq_true]%andb_true_iff [H3%bool_decide_eq_true H4%bool_decide_eq_true]%andb_true_iff.
    by rewrite !bool_decide_true by congruence.
Qed.
Lemma wP_ok : policy_ok weqk (λ _, True) wP.
Proof. apply default_policy_ok. intros a ks k. unfold wmk. intros; by simplify_eq. Qed.
Lemma wP_keys (r r' : wkey) : weqk (p_key wP r) (p_key wP r') = bool_decide (r.1 = r'.1) && bool_decide (p_kids wP r = p_kids wP r').
Proof. done. Qed.

Section Plain.
  Context (slot : nat → var) (tmp : tid → var).
  Context (Hslot : ∀ i j, slot i = slot j → i = j) (Htmp : ∀ u v, tmp u = tmp v → u = v) (Hne : ∀ i u, slot i ≠ tmp u).
  Context (own : var → Prop) (thr : bool).
  Notation prog := (prog (A:=word) (L:=word) (O:=bool)).
  Notation env := (gmap var (tree word)).
  Notation wp := (wp (O:=bool) own wmakes thr).
  Implicit Types (M : env).

  Lemma wp_copies x T k : ∀ j (p : prog) M Q, M !! x = Some T → (∀ i, j ≤ i → i < j + k → M !! slot i = None ∧ own (slot i)) →
    (∀ M', (∀ i, j ≤ i → i < j + k → M' !! slot i = Some T) → (∀ y, (∀ i, j ≤ i → i < j + k → y ≠ slot i) → M' !! y = M !! y) → wp p M' Q) →
    wp (copies slot x j k p) M Q.
  Proof.
    induction k as [|k IH]; intros j p M Q Hx Hi Hp; cbn [copies].
    { apply Hp; [intros; lia|done]. }
    cbn. destruct (Hi j) as [Hj1 Hj2]; [lia|lia|]. split; [done|]. split; [done|]. exists T. split; [done|].
    assert (Hxj : x ≠ slot j) by (intros ->; congruence).
    eapply IH.
    - by rewrite lookup_insert_ne.
    - intros i ? ?. rewrite lookup_insert_ne by (intros ?%Hslot; lia). apply Hi; lia.
    - intros M' H1 H2. apply Hp.
      + intros i ? ?. destruct (decide (i = j)) as [->|]; [|apply H1; lia]. rewrite H2; [by rewrite lookup_insert|]. intros i' ? ? ?%Hslot. lia.
      + intros y Hy. rewrite H2 by (intros i ? ?; apply Hy; lia). apply lookup_insert_ne. intros <-. by apply (Hy j); [lia|lia|].
  Qed.
  Lemma wp_make_words u room N M : own (tmp u) → (∀ i, i < N → own (slot i)) → (∀ x, own x → M !! x = None) →
    wp (make_words slot tmp u room N) M (λ o M', (thr = false → room = true → o = true) ∧
      if o then (∀ i, i < N → M' !! slot i = Some (Tree [] [])) ∧ (∀ y, (∀ i, i < N → y ≠ slot i) → M' !! y = M !! y) else M' = M).
  Proof.
    intros Hu Hs HM. unfold make_words. cbn. split; [done|]. split; [by apply HM|]. exists [], []. split; [by constructor|]. split; [done|]. split; [|by intros ->].
    destruct room; cbn.
    - eapply (wp_copies (tmp u) (Tree [] [])).
      + by rewrite lookup_insert.
      + intros i _ ?. rewrite lookup_insert_ne by (intros E; by destruct (Hne i u)). split; [apply HM|]; apply Hs; lia.
      + intros M' H1 H2. cbn. exists (Tree [] []). split; [rewrite H2; [by rewrite lookup_insert|]; intros i _ _ E; by destruct (Hne i u)|].
        split; [done|]. split.
        * intros i Hi. rewrite lookup_delete_ne by (intros E; by destruct (Hne i u)). apply H1; lia.
        * intros y Hy. destruct (decide (y = tmp u)) as [->|Hyu]; [rewrite lookup_delete; symmetry; by apply HM|].
          rewrite lookup_delete_ne by done. rewrite H2 by (intros i _ ?; apply Hy; lia). by apply lookup_insert_ne.
    - exists (Tree [] []). split; [by rewrite lookup_insert|]. split; [done|]. apply delete_insert. by apply HM.
  Qed.
  Lemma wp_fill u ws : ∀ out M, own (tmp u) → M !! tmp u = None → (∀ i, out ≤ i → i < out + length ws → is_Some (M !! slot i)) →
    wp (fill slot tmp u out ws) M (λ o M', (thr = false → o = true) ∧
      (o = true → (∀ d w, ws !! d = Some w → M' !! slot (out + d) = Some (Tree w [])) ∧ ∀ y, (∀ i, out ≤ i → i < out + length ws → y ≠ slot i) → M' !! y = M !! y)).
  Proof.
    induction ws as [|w ws IH]; intros out M Hu HM Hs; cbn [fill]; [done|]. cbn. split; [done|]. split; [done|]. exists [], w. split; [by constructor|]. split; [done|].
    split; [|by intros ->]. destruct (Hs out) as [T HT]; [lia|simpl; lia|].
    assert (Hd : slot out ≠ tmp u) by apply Hne.
    exists T, (Tree w []). split; [by rewrite lookup_insert_ne by done|]. split; [by rewrite lookup_insert|]. exists (Tree w []).
    split; [rewrite lookup_insert_ne by done; by rewrite lookup_insert|].
    replace (delete (tmp u) (<[slot out:=Tree w []]> (<[tmp u:=Tree w []]> M))) with (<[slot out:=Tree w []]> M).
    2: { rewrite delete_insert_ne by done. f_equal. symmetry. by apply delete_insert. }
    eapply wp_mono; [|apply (IH (S out)); [done|by rewrite lookup_insert_ne by done|]].
    - intros o M' [H1 H2]. split; [done|]. intros ->. destruct (H2 eq_refl) as [H3 H4]. split.
      + intros [|d] w'; simpl.
        * intros [= <-]. rewrite Nat.add_0_r, H4; [by rewrite lookup_insert|]. intros i ? ? ?%Hslot. lia.
        * intros Hd'. rewrite <- (H3 d w' Hd'). do 2 f_equal. lia.
      + intros y Hy. rewrite H4 by (intros i ? ?; apply Hy; simpl; lia). apply lookup_insert_ne. intros <-. apply (Hy out); simpl; [lia|lia|done].
    - intros i ? ?. rewrite lookup_insert_ne by (intros ?%Hslot; lia). apply Hs; simpl; lia.
  Qed.
  Lemma wp_drop xs : ∀ (p : prog) M Q, NoDup xs → (∀ x, x ∈ xs → is_Some (M !! x)) →
    (∀ M', (∀ x, x ∈ xs → M' !! x = None) → (∀ x, x ∉ xs → M' !! x = M !! x) → wp p M' Q) → wp (destroy_all xs p) M Q.
  Proof.
    induction xs as [|x xs IH]; intros p M Q Hnd Hx Hp; cbn [destroy_all]; [apply Hp; [by intros ? ?%not_elem_of_nil|done]|].
    apply NoDup_cons in Hnd as [Hx' Hnd]. destruct (Hx x) as [T HT]; [by left|]. cbn. exists T. split; [done|]. eapply IH; [done| |].
    - intros y Hy. rewrite lookup_delete_ne by (intros ->; done). apply Hx. by right.
    - intros M' H1 H2. apply Hp.
      + intros y [->|Hy]%elem_of_cons; [|by apply H1]. rewrite H2 by done. by rewrite lookup_delete.
      + intros y [Hy Hy']%not_elem_of_cons. rewrite H2 by done. by apply lookup_delete_ne.
  Qed.
End Plain.

(** ** Where the threads write *)
Lemma starts_spec (css : list (list (nat * nat))) : ∀ a i k c, output_starts a (length <$> css) !! i = Some k → css !! i = Some c →
  a ≤ k ∧ k + length c ≤ a + length (concat css) ∧ ∀ d, d < length c → concat css !! (k - a + d) = c !! d.
Proof.
  induction css as [|c0 css IH]; intros a [|i] k c; cbn; try done.
  - intros [= <-] [= <-]. rewrite app_length. split_and!; [lia|lia|]. intros d Hd. replace (a - a + d) with d by lia. by apply lookup_app_l.
  - intros Hk Hc. destruct (IH _ _ _ _ Hk Hc) as (H1&H2&H3). rewrite app_length. split_and!; [lia|lia|]. intros d Hd. rewrite lookup_app_r by lia.
    rewrite <- (H3 d Hd). f_equal. lia.
Qed.
Lemma starts_cover (css : list (list (nat * nat))) : ∀ a j, j < length (concat css) → ∃ i k c, output_starts a (length <$> css) !! i = Some k ∧ css !! i = Some c ∧ k ≤ a + j ∧ a + j < k + length c.
Proof.
  induction css as [|c0 css IH]; intros a j; cbn; [lia|]. rewrite app_length. intros Hj. destruct (decide (j < length c0)) as [Hlt|Hge].
  - exists 0, a, c0. split_and!; [done|done|lia|lia].
  - destruct (IH (a + length c0) (j - length c0)) as (i&k&c&H1&H2&H3&H4); [lia|]. exists (S i), k, c. split_and!; [done|done|lia|lia].
Qed.
Lemma starts_apart (css : list (list (nat * nat))) : ∀ a i i' k k' c, i < i' → output_starts a (length <$> css) !! i = Some k → css !! i = Some c →
  output_starts a (length <$> css) !! i' = Some k' → k + length c ≤ k'.
Proof.
  induction css as [|c0 css IH]; intros a i i' k k' c Hi; [destruct i; done|]. cbn. destruct i' as [|i']; [lia|]. destruct i as [|i]; simpl.
  - intros [= <-] [= <-] Hk'. destruct (lookup_lt_is_Some_2 css i') as [c' Hc'].
    { apply lookup_lt_Some in Hk'. clear -Hk'. revert Hk'. generalize (a + length c0). clear. revert i'. induction css as [|c css IH]; intros i' a; simpl; [done|]. destruct i' as [|i']; [lia|]. intros H%Nat.succ_lt_mono. apply IH in H. lia. }
    by destruct (starts_spec css _ _ _ _ Hk' Hc') as (?&_).
  - intros Hk Hc Hk'. eapply (IH _ i i'); [lia|done|done|done].
Qed.
Lemma starts_length (css : list (list (nat * nat))) : ∀ a, length (output_starts a (length <$> css)) = length css.
Proof. induction css as [|c css IH]; intros a; cbn; [done|]. by rewrite IH. Qed.

(** ** The program in its threads *)
Lemma team_lookup (u : tid) (p : prog (A:=word) (L:=word) (O:=bool)) qs : NoDup (u :: qs.*1) →
  ∀ v w q, team_of u p qs !! v = Some (w, q) ↔ w = false ∧ ((v = u ∧ q = p) ∨ (v, q) ∈ qs).
Proof.
  intros [Hu Hn]%NoDup_cons v w q. unfold team_of.
  assert (Hfst : (prod_map id (pair false) <$> qs).*1 = qs.*1) by (rewrite <- list_fmap_compose; apply list_fmap_ext; intros ? [? ?] ?; done).
  destruct (decide (v = u)) as [->|Hv].
  - rewrite lookup_insert. split; [intros [= <- <-]; eauto|]. intros [-> [[_ ->]|Hq]]; [done|]. destruct Hu. apply elem_of_list_fmap. by exists (u, q).
  - rewrite lookup_insert_ne by done. rewrite <- elem_of_list_to_map by (by rewrite Hfst). rewrite elem_of_list_fmap. split.
    + intros ([v' q']&[= -> -> ->]&Hq). split; [done|by right].
    + intros [-> [[? _]|Hq]]; [done|]. by exists (v, q).
Qed.
Lemma team_dom (u : tid) (p : prog (A:=word) (L:=word) (O:=bool)) qs : dom (team_of u p qs) = list_to_set (u :: qs.*1) :> gset tid.
Proof.
  unfold team_of. rewrite dom_insert_L, dom_list_to_map_L. simpl. f_equal. f_equal. rewrite <- list_fmap_compose. apply list_fmap_ext. by intros ? [? ?] ?.
Qed.

Section Machine.
  Context (FS : factory wkey) (HF : factory_spec weqk FS) (cfg : config) (t0 : tid).
  (** several threads use the flyweights *)
  Context (Hlck : lck cfg = true).
  Context (slot : nat → var) (tmp : tid → var).
  Context (Hslot : ∀ i j, slot i = slot j → i = j) (Htmp : ∀ u v, tmp u = tmp v → u = v) (Hne : ∀ i u, slot i ≠ tmp u).
  Context (txt : word) (u : tid) (us : list tid) (Hus : NoDup (u :: us)) (Hn : 1 ≤ length us) (room : bool).
  Context (css : list (list (nat * nat))) (Hcss : chunks txt (length us) = Some css).
  Notation state := (state (R:=wkey) (K:=wkey) (A:=word) FS).
  Notation reachable := (reachable wP FS cfg t0).
  Notation env := (gmap var (tree word)).
  Notation N := (length (concat css)).
  Notation shows := (shows wP FS fst).
  Notation starts := (output_starts 0 (length <$> css)).
  Implicit Types (s : state) (M : env).

  (** the objects of the process *)
  Definition objects : list var := (slot <$> seq 0 N) ++ (tmp <$> u :: us).
  Notation Own := (λ x, x ∈ objects).
  Notation frun := (frun wP FS cfg fst id).
  Notation stages_safe := (stages_safe (O:=bool) cfg t0 wmakes id Own (room = true)).
  Notation team1 := (stage1 slot tmp u us room css).
  Notation team2 := (stage2 slot tmp txt u us css).
  Notation team3 := (stage3 slot u us css).

  Lemma css_length : length css = length us.
  Proof using HF Hlck Hslot Htmp Hne Hus Hn Hcss. destruct (C69_chunks txt (length us) Hn) as (css'&E&Hl&_). congruence. Qed.
  Lemma fillers_fst : (fillers slot tmp txt us css).*1 = us.
  Proof using HF Hlck Hslot Htmp Hne Hus Hn Hcss.
    unfold fillers. rewrite <- list_fmap_compose. transitivity ((fst ∘ fst) <$> zip (zip us starts) css); [apply list_fmap_ext; by intros ? [[? ?] ?] ?|].
    rewrite list_fmap_compose, fst_zip; [rewrite fst_zip; [done|]|]; rewrite ?zip_with_length, starts_length, css_length; lia.
  Qed.
  Lemma idle_fst : (idle us).*1 = us.
  Proof. unfold idle. rewrite <- list_fmap_compose. by apply list_fmap_id. Qed.
  Lemma in_objects x : x ∈ objects ↔ (∃ j, j < N ∧ x = slot j) ∨ ∃ v, v ∈ u :: us ∧ x = tmp v.
  Proof.
    clear Hn. unfold objects. rewrite elem_of_app, !elem_of_list_fmap. split.
    - intros [(j&->&Hj%elem_of_seq)|(v&->&Hv)]; [left; exists j; split; [lia|done]|right; eauto].
    - intros [(j&Hj&->)|(v&Hv&->)]; [left; exists j; split; [done|]; apply elem_of_seq; lia|right; eauto].
  Qed.
  Definition names1 (v : tid) : list var := if decide (v = u) then objects else [].
  Lemma shares1 p : shares Own (λ v x, x ∈ names1 v) (team_of u p (idle us)).
  Proof.
    unfold names1. split; [|split].
    - intros v w x. destruct (decide (v = u)), (decide (w = u)); try congruence; by intros ? ?%elem_of_nil || intros ?%elem_of_nil.
    - intros v x. destruct (decide (v = u)) as [->|]; [|by intros ?%elem_of_nil]. intros Hx. split; [done|]. apply elem_of_dom. rewrite team_dom. set_solver.
    - intros x Hx. exists u. by destruct (decide (u = u)).
  Qed.
  Definition names2 (v : tid) : list var :=
    (if decide (v ∈ u :: us) then [tmp v] else []) ++ concat ((λ z, if decide (z.1.1 = v) then slot <$> seq z.1.2 (length z.2) else []) <$> zip (zip us starts) css).
  Lemma in_zips v k c : (v, k, c) ∈ zip (zip us starts) css ↔ ∃ i, us !! i = Some v ∧ starts !! i = Some k ∧ css !! i = Some c.
  Proof.
    rewrite elem_of_list_lookup. f_equiv. intros i. rewrite lookup_zip_with_Some. split.
    - intros ([v' k']&c'&[= <- <- <-]&Hz&Hc). apply lookup_zip_with_Some in Hz as (?&?&[= <- <-]&?&?). done.
    - intros (?&?&?). exists (v, k), c. split_and!; try done. apply lookup_zip_with_Some. eauto.
  Qed.
  Lemma in_names2 v x : x ∈ names2 v ↔ (v ∈ u :: us ∧ x = tmp v) ∨ ∃ i k c j, us !! i = Some v ∧ starts !! i = Some k ∧ css !! i = Some c ∧ k ≤ j ∧ j < k + length c ∧ x = slot j.
  Proof.
    unfold names2. rewrite elem_of_app. f_equiv.
    - destruct (decide (v ∈ u :: us)); [rewrite elem_of_list_singleton|rewrite elem_of_nil]; split; [done|by intros [_ ?]|done|by intros [? _]].
    - rewrite elem_of_list_In, in_concat. split.
      + intros (l&Hl%elem_of_list_In&Hx%elem_of_list_In). apply elem_of_list_fmap in Hl as ([[v' k] c]&->&Hz). simpl in Hx.
        destruct (decide (v' = v)) as [->|]; [|by apply elem_of_nil in Hx]. apply in_zips in Hz as (i&?&?&?).
        apply elem_of_list_fmap in Hx as (j&->&Hj%elem_of_seq). exists i, k, c, j. split_and!; try done; lia.
      + intros (i&k&c&j&Hi&Hk&Hc&?&?&->). exists (slot <$> seq k (length c)). rewrite <- !elem_of_list_In. split.
        * apply elem_of_list_fmap. exists (v, k, c). split; [simpl; by destruct (decide (v = v))|]. apply in_zips. eauto.
        * apply elem_of_list_fmap. exists j. split; [done|]. apply elem_of_seq. lia.
  Qed.
  Lemma shares2 : shares Own (λ v x, x ∈ names2 v) team2.
  Proof using HF Hlck Hslot Htmp Hne Hus Hn Hcss.
    split; [|split].
    - intros v w x. rewrite !in_names2. intros [[Hv ->]|(i&k&c&j&Hi&Hk&Hc&?&?&->)] [[Hw E]|(i'&k'&c'&j'&Hi'&Hk'&Hc'&?&?&E)].
      + by apply Htmp.
      + by destruct (Hne j' v).
      + by destruct (Hne j w).
      + apply Hslot in E as <-. assert (i = i') as <-; [|congruence]. destruct (Nat.lt_trichotomy i i') as [Hlt|[?|Hlt]]; [|done|].
        * pose proof (starts_apart css 0 i i' k k' c Hlt Hk Hc Hk'). lia.
        * pose proof (starts_apart css 0 i' i k' k c' Hlt Hk' Hc' Hk). lia.
    - intros v x. rewrite in_names2, in_objects. intros Hx. assert (Hv : v ∈ u :: us).
      { destruct Hx as [[? _]|(i&k&c&j&Hi&_)]; [done|]. right. by eapply elem_of_list_lookup_2. }
      split; [|apply elem_of_dom; unfold stage2; rewrite team_dom, fillers_fst; by apply elem_of_list_to_set].
      destruct Hx as [[? ->]|(i&k&c&j&Hi&Hk&Hc&?&?&->)]; [right; eauto|left]. exists j. split; [|done].
      destruct (starts_spec css 0 i k c Hk Hc) as (_&?&_). lia.
    - intros x [(j&Hj&->)|(v&Hv&->)]%in_objects; [|exists v; apply in_names2; by left].
      destruct (starts_cover css 0 j Hj) as (i&k&c&Hk&Hc&?&?). destruct (lookup_lt_is_Some_2 us i) as [v Hv]; [rewrite <- css_length; by eapply lookup_lt_Some|].
      exists v. apply in_names2. right. exists i, k, c, j. split_and!; try done; lia.
  Qed.

  (** after each stage *)
  Definition inside M : Prop := ∀ x, is_Some (M !! x) → x ∈ objects.
  Definition blank M : Prop := (∀ j, j < N → M !! slot j = Some (Tree [] [])) ∧ ∀ v, M !! tmp v = None.
  Definition filled M : Prop := (∀ j be, concat css !! j = Some be → M !! slot j = Some (Tree (text_at txt be) [])) ∧ ∀ v, M !! tmp v = None.

  Lemma safe3 M : inside M → filled M → stages_safe M team3 [] (λ M', M' = ∅).
  Proof using HF Hlck Hslot Htmp Hne Hus Hn Hcss.
    intros Hin [H1 H2]. eapply (stages_intro cfg t0 wmakes id Own (room = true) wmakes_fun names1 (λ v M', v = u → M' = ∅)); [apply shares1|done| |].
    - intros v w p. unfold stage3. rewrite team_lookup by (by rewrite idle_fst). intros [-> [[-> ->]|Hv]].
      + assert (Hw : ∀ thr, wp (λ x, x ∈ names1 u) wmakes thr (drop_words slot N) (restr (names1 u) M) (λ o M', o = true ∧ M' = ∅)).
        { intros thr. unfold names1. destruct (decide (u = u)); [|done]. unfold drop_words. eapply wp_drop.
          - apply NoDup_fmap_2; [intros ? ?; apply Hslot|apply NoDup_seq].
          - intros x (j&->&Hj%elem_of_seq)%elem_of_list_fmap. rewrite restr_some by (apply in_objects; left; exists j; split; [lia|done]).
            destruct (lookup_lt_is_Some_2 (concat css) j) as [be Hbe]; [lia|]. rewrite (H1 j be Hbe). eauto.
          - intros M' D1 D2. cbn. split; [done|]. apply map_empty. intros x. destruct (decide (x ∈ slot <$> seq 0 N)) as [|Hx]; [by apply D1|]. rewrite D2 by done.
            rewrite restr_lookup. case_bool_decide as Hx'; [|done]. unfold objects in Hx'. apply elem_of_app in Hx' as [?|(v&->&_)%elem_of_list_fmap]; [done|apply H2]. }
        split; [done|]. split; [congruence|]. split; [eapply wp_mono; [|apply Hw]; by intros o M' [_ ?]|]. intros _. eapply wp_mono; [|apply Hw]. by intros o M' [-> _].
      + apply elem_of_list_fmap in Hv as (v'&[= -> ->]&Hv). split; [done|]. split; [congruence|]. apply NoDup_cons in Hus as [Hu _].
        split; [|done]. cbn. intros _ ->. done.
    - intros M' Hin' HQ. specialize (HQ u). rewrite <- (HQ); [|apply elem_of_dom; unfold stage3; rewrite team_dom; set_solver|done]. unfold names1.
      destruct (decide (u = u)); [|done]. apply map_eq. intros x. rewrite restr_lookup. case_bool_decide as Hx; [done|]. apply eq_None_not_Some. by intros ?%Hin'.
  Qed.
  Lemma safe2 M rest Q : inside M → blank M →
    (∀ M', inside M' → filled M' → match rest with [] => Q M' | ps' :: rest' => dom ps' = dom team2 ∧ stages_safe M' ps' rest' Q end) →
    stages_safe M team2 rest Q.
  Proof using HF Hlck Hslot Htmp Hne Hus Hn Hcss.
    intros Hin [H1 H2] Hnext.
    eapply (stages_intro cfg t0 wmakes id Own (room = true) wmakes_fun names2 (λ v M', M' !! tmp v = None ∧
      ∀ i k c, us !! i = Some v → starts !! i = Some k → css !! i = Some c → ∀ d be, c !! d = Some be → M' !! slot (k + d) = Some (Tree (text_at txt be) [])));
      [apply shares2|done| |].
    - intros v w p. unfold stage2. rewrite team_lookup by (by rewrite fillers_fst). intros [-> [[-> ->]|Hv]].
      + split; [done|]. split; [congruence|]. split; [|done]. cbn. intros _. split; [rewrite restr_lookup; by case_bool_decide|].
        intros i k c Hi. apply NoDup_cons in Hus as [Hu _]. destruct Hu. by eapply elem_of_list_lookup_2.
      + apply elem_of_list_fmap in Hv as ([[v' k] c]&[= -> ->]&Hz). apply in_zips in Hz as (i&Hi&Hk&Hc). cbn [fst snd].
        assert (Hvu : v' ∈ u :: us) by (right; by eapply elem_of_list_lookup_2).
        assert (Hw : ∀ thr, wp (λ x, x ∈ names2 v') wmakes thr (fill slot tmp v' k (text_at txt <$> c)) (restr (names2 v') M) (λ o M', (thr = false → o = true) ∧
          (o = true → (∀ d w, (text_at txt <$> c) !! d = Some w → M' !! slot (k + d) = Some (Tree w [])) ∧
            ∀ y, (∀ i, k ≤ i → i < k + length (text_at txt <$> c) → y ≠ slot i) → M' !! y = restr (names2 v') M !! y))).
        { intros thr. apply wp_fill; [done|done|apply in_names2; by left|rewrite restr_lookup; by case_bool_decide|].
          intros j ? Hj. rewrite fmap_length in Hj. rewrite restr_some by (apply in_names2; right; by exists i, k, c, j).
          destruct (starts_spec css 0 i k c Hk Hc) as (_&?&_). rewrite H1 by lia. eauto. }
        split; [done|]. split; [congruence|]. split.
        * eapply wp_mono; [|apply Hw]. intros o M' [_ Ho] Hf. destruct (Ho Hf) as [D1 D2]. split.
          { rewrite D2 by (intros j _ _ E; by destruct (Hne j v')). rewrite restr_lookup. by case_bool_decide. }
          intros i' k' c' Hi' Hk' Hc'. assert (i' = i) as -> by (apply NoDup_cons in Hus as [_ Hnd]; by eapply NoDup_lookup). simplify_eq.
          intros d be Hd. apply D1. by rewrite list_lookup_fmap, Hd.
        * intros _. eapply wp_mono; [|apply Hw]. intros o M' [Ho _]. by apply Ho.
    - intros M' Hin' HQ. apply Hnext; [done|]. assert (HQ' : ∀ v, v ∈ u :: us → is_Some (team2 !! v)).
      { intros v Hv. apply elem_of_dom. unfold stage2. rewrite team_dom, fillers_fst. by apply elem_of_list_to_set. }
      split.
      + intros j be Hj. destruct (starts_cover css 0 j) as (i&k&c&Hk&Hc&?&?); [by eapply lookup_lt_Some|]. simpl in *.
        destruct (lookup_lt_is_Some_2 us i) as [v Hv]; [rewrite <- css_length; by eapply lookup_lt_Some|].
        assert (Hvu : v ∈ u :: us) by (right; by eapply elem_of_list_lookup_2). destruct (HQ v (HQ' v Hvu)) as [_ Hd].
        destruct (starts_spec css 0 i k c Hk Hc) as (_&_&Hs). specialize (Hs (j - k)). replace (k - 0 + (j - k)) with j in Hs by lia.
        specialize (Hd i k c Hv Hk Hc (j - k) be). replace (k + (j - k)) with j in Hd by lia. rewrite <- Hd; [|rewrite <- Hs by lia; done].
        symmetry. apply restr_some, in_names2. right. exists i, k, c, j. split_and!; try done; lia.
      + intros v. destruct (decide (v ∈ u :: us)) as [Hv|Hv].
        * destruct (HQ v (HQ' v Hv)) as [Hd _]. by rewrite restr_some in Hd by (apply in_names2; by left).
        * apply eq_None_not_Some. intros [(j&_&E)|(w&Hw&E)]%Hin'%in_objects; [by destruct (Hne j v)|]. apply Htmp in E as ->. done.
  Qed.
  Lemma make_words_wp thr : wp (λ x, x ∈ names1 u) wmakes thr (make_words slot tmp u room N) (restr (names1 u) ∅) (λ o M', (thr = false → room = true → o = true) ∧
      if o then (∀ i, i < N → M' !! slot i = Some (Tree [] [])) ∧ (∀ y, (∀ i, i < N → y ≠ slot i) → M' !! y = restr (names1 u) ∅ !! y) else M' = restr (names1 u) ∅).
  Proof using HF Hlck Hslot Htmp Hne Hus Hn Hcss.
    assert (E : names1 u = objects) by (unfold names1; by destruct (decide (u = u))).
    apply wp_make_words; try done; rewrite E.
    - apply in_objects. right. exists u. split; [by left|done].
    - intros i Hi. apply in_objects. left. eauto.
  Qed.
  Lemma safe1 rest Q :
    (∀ M', inside M' → blank M' → match rest with [] => Q M' | ps' :: rest' => dom ps' = dom team1 ∧ stages_safe M' ps' rest' Q end) →
    stages_safe ∅ team1 rest Q.
  Proof using HF Hlck Hslot Htmp Hne Hus Hn Hcss.
    intros Hnext. eapply (stages_intro cfg t0 wmakes id Own (room = true) wmakes_fun names1 (λ v M', v = u → blank M')); [apply shares1|intros x; rewrite lookup_empty; by intros [? ?]| |].
    - intros v w p. unfold stage1. rewrite team_lookup by (by rewrite idle_fst). intros [-> [[-> ->]|Hv]].
      + split; [done|]. split; [congruence|]. split.
        * eapply wp_mono; [|apply (make_words_wp true)]. intros o M' [_ Ho] Hf _. destruct o; [|done]. destruct Ho as [D1 D2]. split; [done|].
          intros v. rewrite D2 by (intros i _ E; by destruct (Hne i v)). rewrite restr_lookup. by case_bool_decide.
        * intros Hr. eapply wp_mono; [|apply (make_words_wp false)]. intros o M' [Ho _]. by apply Ho.
      + apply elem_of_list_fmap in Hv as (v'&[= -> ->]&Hv). split; [done|]. split; [congruence|]. apply NoDup_cons in Hus as [Hu _].
        split; [|done]. cbn. intros _ ->. done.
    - intros M' Hin' HQ. apply Hnext; [done|]. specialize (HQ u). unfold names1 in HQ. destruct (decide (u = u)); [|done].
      destruct HQ as [D1 D2]; [apply elem_of_dom; unfold stage1; rewrite team_dom; set_solver|done|]. split.
      + intros j Hj. rewrite <- (D1 j Hj). symmetry. apply restr_some, in_objects. left. eauto.
      + intros v. apply eq_None_not_Some. intros Hs. specialize (D2 v). rewrite restr_some in D2 by (by apply Hin'). rewrite D2 in Hs. by destruct Hs.
  Qed.
  Lemma dom12 : dom team2 = dom team1 ∧ dom team3 = dom team2.
  Proof using HF Hlck Hslot Htmp Hne Hus Hn Hcss. unfold stage1, stage2, stage3. by rewrite !team_dom, fillers_fst, idle_fst. Qed.

  Definition fresh s : Prop := ∀ x, x ∈ objects → vars s !! x = None.
  Lemma fresh_agrees s : fresh s ↔ agrees wP FS fst Own s ∅.
  Proof.
    split.
    - intros E. split; [intros x Hx; rewrite lookup_empty; by apply E|intros x [? Hx]; by rewrite lookup_empty in Hx].
    - intros [E _] x Hx. specialize (E x Hx). by rewrite lookup_empty in E.
  Qed.
  Definition still s : Prop := ∀ v, v ∈ u :: us → stack s v = [].
  Lemma still_team s : still s → ∀ v, is_Some (team1 !! v) → stack s v = [].
  Proof. intros Hs v Hv. apply Hs. apply elem_of_dom in Hv. unfold stage1 in Hv. rewrite team_dom, idle_fst in Hv. by apply elem_of_list_to_set in Hv. Qed.

  (** the contents of the vector: the words of the text, found as if by one thread *)
  Definition the_words : list word := text_at txt <$> default [] (tokenize txt 0 (length txt)).
  Lemma the_words_css : the_words = text_at txt <$> concat css.
  Proof using HF Hlck Hslot Htmp Hne Hus Hn Hcss. destruct (C69_chunks txt (length us) Hn) as (css'&E&_&E'). unfold the_words. rewrite E'. by simplify_eq. Qed.
  Definition result s : Prop := ∀ j w, the_words !! j = Some w → ∃ v, value_of s (slot j) = Some v ∧ shows s v.1 (Tree w []).
  Lemma filled_result s M : agrees wP FS fst Own s M → filled M → result s.
  Proof using HF Hlck Hslot Htmp Hne Hus Hn Hcss.
    intros [Ha _] [H1 _] j w. rewrite the_words_css, list_lookup_fmap. destruct (concat css !! j) as [be|] eqn:Hbe; [|done]. intros [= <-].
    assert (Hin : slot j ∈ objects) by (apply in_objects; left; exists j; split; [by eapply lookup_lt_Some|done]).
    specialize (Ha _ Hin). by rewrite (H1 j be Hbe) in Ha.
  Qed.

  Theorem C69_parse s ls : reachable s → still s → fresh s → Forall (outsider Own) ls → Forall (timely cfg t0) ls →
    ∃ s' ps' rest', frun (s, team1, [team2]) ls = Some (s', ps', rest') ∧ reachable s' ∧
      (rest' = [] → all_fine id ps' = true → result s' ∧
        (trk cfg = true → quiescent s' → (∀ y, is_Some (vars s' !! y) → y ∈ objects) →
          size (heap s') = length (remove_dups the_words) ∧ ∀ T, (∃ a, shows s' a T) ↔ ∃ w, w ∈ the_words ∧ T = Tree w [])).
  Proof using HF Hlck Hslot Htmp Hne Hus Hn Hcss.
    intros Hre Hst Hfr Ho Hi.
    destruct (C68_stages wP FS cfg weqk (λ _, True) weqk_equivalence wP_ok HF t0 fst wP_keys wmakes wmakes_make id Own (room = true) s ∅ team1 [team2] (λ M, inside M ∧ filled M) ls)
      as (s'&ps'&rest'&E&Hre'&Hd&_&Hend); [done|by apply still_team|by apply fresh_agrees| |done|done|].
    { apply safe1. intros M' Hin Hb. split; [apply dom12|]. by apply safe2. }
    exists s', ps', rest'. split; [done|]. split; [done|]. intros -> Hf. destruct (Hend eq_refl Hf) as (_&M&Hag&Hin&Hfi).
    pose proof (filled_result s' M Hag Hfi) as Hres. split; [done|]. intros Htr Hq Hall.
    destruct (C64_minimal wP FS cfg weqk (λ _, True) weqk_equivalence wP_ok HF t0 fst wP_keys s' Htr Hre' Hq) as (Q1&Q2&Q3).
    assert (HT : ∀ T, (∃ a, shows s' a T) ↔ ∃ w, w ∈ the_words ∧ T = Tree w []).
    { intros T. rewrite Q3. split.
      - intros (y&v&W&path&Hv&HW&Hsub).
        assert (∃ w, w ∈ the_words ∧ W = Tree w []) as (w&Hw&->).
        { pose proof Hv as Hy. destruct v as [h r]. apply (value_of_var wP FS cfg weqk (λ _, True) HF t0) in Hy as (Hy&_); [|by apply (reach_inv wP FS cfg weqk (λ _, True) weqk_equivalence wP_ok HF t0)].
          pose proof (Hall y (ex_intro _ _ Hy)) as Hyo. destruct Hag as [Ha _]. pose proof (Ha y Hyo) as Hd'. apply in_objects in Hyo as [(j&Hj&->)|(w&Hw&->)].
          - destruct (lookup_lt_is_Some_2 (concat css) j Hj) as [be Hbe]. destruct Hfi as [Hfi _]. rewrite (Hfi j be Hbe) in Hd'. destruct Hd' as (v'&Hv'&Hs'). simplify_eq.
            exists (text_at txt be). split; [rewrite the_words_css; apply elem_of_list_fmap; exists be; split; [done|by eapply elem_of_list_lookup_2]|].
            by apply (Q2 h h).
          - destruct Hfi as [_ Hfi]. rewrite (Hfi w) in Hd'. unfold denotes in Hd'. congruence. }
        exists w. split; [done|]. destruct path; [by injection Hsub|done].
      - intros (w&Hw&->). apply elem_of_list_lookup in Hw as [j Hj]. destruct (Hres j w Hj) as (v&Hv&Hs). by exists (slot j), v, (Tree w []), []. }
    split; [|done]. rewrite <- (fmap_length (λ w, Tree w [])). eapply (entries_count wP FS fst s'); [done|done| |].
    - apply NoDup_fmap_2; [by intros ? ? [= ->]|apply NoDup_remove_dups].
    - intros T. rewrite HT, elem_of_list_fmap. split; intros (w&?&?); exists w; [by rewrite elem_of_remove_dups|by rewrite <- elem_of_remove_dups].
  Qed.
  (** nothing is left *)
  Theorem C69_all s ls : reachable s → still s → fresh s → Forall (outsider Own) ls → Forall (timely cfg t0) ls →
    ∃ s' ps' rest', frun (s, team1, [team2; team3]) ls = Some (s', ps', rest') ∧ reachable s' ∧
      (rest' = [] → all_fine id ps' = true → fresh s').
  Proof using HF Hlck Hslot Htmp Hne Hus Hn Hcss.
    intros Hre Hst Hfr Ho Hi.
    destruct (C68_stages wP FS cfg weqk (λ _, True) weqk_equivalence wP_ok HF t0 fst wP_keys wmakes wmakes_make id Own (room = true) s ∅ team1 [team2; team3] (λ M, M = ∅) ls)
      as (s'&ps'&rest'&E&Hre'&Hd&_&Hend); [done|by apply still_team|by apply fresh_agrees| |done|done|].
    { apply safe1. intros M' Hin Hb. split; [apply dom12|]. apply safe2; [done|done|]. intros M2 Hin2 Hf2. split; [apply dom12|]. by apply safe3. }
    exists s', ps', rest'. split; [done|]. split; [done|]. intros -> Hf. destruct (Hend eq_refl Hf) as (_&M&Hag&->). by apply fresh_agrees.
  Qed.
  (** all can come to its end *)
  Theorem C69_completes s : room = true → reachable s → still s → fresh s →
    ∃ ls s' ps', Forall (outsider Own) ls ∧ Forall (timely cfg t0) ls ∧ frun (s, team1, [team2]) ls = Some (s', ps', []) ∧ all_fine id ps' = true ∧ quiescent s' ∧ result s' ∧
    ∃ ls2 s2 ps2, Forall (outsider Own) ls2 ∧ Forall (timely cfg t0) ls2 ∧ frun (s, team1, [team2; team3]) ls2 = Some (s2, ps2, []) ∧ all_fine id ps2 = true ∧ quiescent s2 ∧ fresh s2.
  Proof using HF Hlck Hslot Htmp Hne Hus Hn Hcss.
    intros Hr Hre Hst Hfr.
    destruct (C68_stages_complete wP FS cfg weqk (λ _, True) weqk_equivalence wP_ok HF t0 fst wP_keys wmakes wmakes_make id Own (room = true) [team2] Hr s ∅ team1 (λ M, inside M ∧ filled M))
      as (ls&s'&ps'&M&E1&E2&E3&E4&Hre'&Hq&Hag&Hin&Hfi); [done|by apply still_team|by apply fresh_agrees| |].
    { apply safe1. intros M' Hin Hb. split; [apply dom12|]. by apply safe2. }
    exists ls, s', ps'. split; [eapply Forall_impl; [exact E1|]; intros l; apply peaceful_outsider|]. split; [done|]. split; [done|]. split; [done|]. split; [done|].
    split; [by eapply filled_result|].
    destruct (C68_stages_complete wP FS cfg weqk (λ _, True) weqk_equivalence wP_ok HF t0 fst wP_keys wmakes wmakes_make id Own (room = true) [team2; team3] Hr s ∅ team1 (λ M, M = ∅))
      as (ls2&s2&ps2&M2&F1&F2&F3&F4&F5&F6&F7&->); [done|by apply still_team|by apply fresh_agrees| |].
    { apply safe1. intros M' Hin' Hb. split; [apply dom12|]. apply safe2; [done|done|]. intros M2 Hin2 Hf2. split; [apply dom12|]. by apply safe3. }
    exists ls2, s2, ps2. split; [eapply Forall_impl; [exact F1|]; intros l; apply peaceful_outsider|]. split; [done|]. split; [done|]. split; [done|]. split; [done|]. by apply fresh_agrees.
  Qed.
  (** an exception in the main thread leaves nothing *)
  Theorem C69_throws s ls s' ps' : reachable s → still s → fresh s → Forall (λ l, outsider Own (FTeam l)) ls → Forall (in_time cfg t0) ls →
    trun wP FS cfg fst (s, team1) ls = Some (s', ps') → ps' !! u = Some (false, Ret false) → fresh s'.
  Proof using HF Hlck Hslot Htmp Hne Hus Hn Hcss.
    intros Hre Hst Hfr Ho Hi Hrun Hu. pose proof (shares1 (make_words slot tmp u room N)) as Hsh.
    assert (H1 : team1 !! u = Some (false, make_words slot tmp u room N)) by (unfold stage1; apply team_lookup; [by rewrite idle_fst|eauto]).
    destruct (C68_team wP FS cfg weqk (λ _, True) weqk_equivalence wP_ok HF t0 fst wP_keys (λ v x, x ∈ names1 v) wmakes wmakes_make (proj1 Hsh) s team1 (λ v, restr (names1 v) ∅) ls)
      as (s2&ps2&Ms2&E&_&_&Hps).
    - split; [done|]. intros v w p Hv. pose proof Hv as Hv'. unfold stage1 in Hv. rewrite team_lookup in Hv by (by rewrite idle_fst). destruct Hv as [-> Hv].
      split; [done|]. split; [congruence|]. split; [by eapply still_team|]. split.
      + split; [|intros x; rewrite restr_lookup; case_bool_decide; [by rewrite lookup_empty|by intros [? ?]]].
        intros x Hx. rewrite restr_some, lookup_empty by done. unfold names1 in Hx. destruct (decide (v = u)); [by apply Hfr|by apply elem_of_nil in Hx].
      + destruct Hv as [[-> ->]|(v'&[= -> ->]&_)%elem_of_list_fmap].
        * eapply wp_safe; [apply wmakes_fun|apply (make_words_wp true)].
        * intros p' M' Hr. inversion Hr as [|? ? ? Hst' _]; subst; [left; eauto|]. inversion Hst'.
    - eapply Forall_impl; [exact Ho|]. intros l Hl. by eapply outsider_stranger.
    - done.
    - rewrite Hrun in E. injection E as <- <-. destruct (Hps u _ _ _ H1 Hu) as [Hr [_ Hag]].
      pose proof (wp_steps _ _ _ wmakes_fun _ _ _ _ _ (make_words_wp true) Hr) as [_ HM]. cbn in HM. rewrite HM in Hag.
      intros x Hx. destruct Hag as [Hag _]. unfold names1 in Hag. destruct (decide (u = u)); [|done]. specialize (Hag x Hx). by rewrite restr_some, lookup_empty in Hag by done.
  Qed.
End Machine.

(** ** Example: three threads and 17 characters; thread 9 meanwhile keeps a word *)
Import Strings.String.
Definition text (s : string) : word := list_ascii_of_string s.
Definition whash (k : wkey) : nat := foldr (λ c n, nat_of_ascii c + 3 * n) 0 k.1.
Definition wFS : factory wkey := hashed_factory whash weqk 1 igrow.
Definition wHF : factory_spec weqk wFS.
Proof.
  apply hashed_factory_spec; [apply weqk_equivalence|]. intros k l [H1%bool_decide_eq_true H2%bool_decide_eq_true]%andb_true_iff.
  unfold whash. by rewrite H1.
Defined.
Definition eslot (j : nat) : var := 3 * j.
Definition etmp (v : tid) : var := 3 * v + 1.
Definition phrase : word := text "the cat, the emu!".
Definition found3 : list (list (nat * nat)) := [[(0, 3); (4, 7)]; [(9, 12)]; [(13, 16)]].
Example C69_divides :
  chunks phrase 3 = Some found3 ∧ boundaries phrase 3 0 = [7; 12; 17] ∧ tokenize phrase 0 17 = Some (List.concat found3) ∧
  text_at phrase <$> List.concat found3 = [text "the"; text "cat"; text "the"; text "emu"] ∧
  chunks phrase 1 = Some [List.concat found3] ∧ tokenize phrase 1 2 = Some [(1, 2)] ∧ tokenize phrase 5 3 = None.
Proof. vm_compute. split_and!; reflexivity. Qed.
Definition tgo (i : nat) (b : bool) (v : tid) : list (flab (A:=word)) := [FTeam (TGo v); FTeam (TEnv (LRun v (Choice (100 + 10 * i + v) b)))].
Definition laps (n i : nat) (b : bool) : list (flab (A:=word)) :=
  List.concat ((λ j, tgo (i + j) b 1 ++ tgo (i + j) b 2 ++ tgo (i + j) b 3 ++ tgo (i + j) b 4 ++ [FTeam (TEnv (LRun 9 (Choice (109 + 10 * (i + j)) false))); FJoin]) <$> seq 0 n).
Definition all_along (n : nat) : list (flab (A:=word)) := FTeam (TEnv (LStart 9 (ONew 2 (text "emu") []))) :: laps n 0 false.
Definition vector (c : option (state (R:=wkey) (K:=wkey) (A:=word) wFS * gmap tid (bool * prog (A:=word) (L:=word) (O:=bool)) * list (gmap tid (bool * prog (A:=word) (L:=word) (O:=bool))))) :=
  match c with
  | Some (s, ps, []) => Some (all_fine id ps, (λ j, (λ v, v.2.1) <$> value_of s (eslot j)) <$> seq 0 4, size (heap s), (map_to_list (vars s)).*1, List.length (stack s 1 ++ stack s 2 ++ stack s 3 ++ stack s 4 ++ stack s 9))
  | _ => None
  end.
Notation eteam1 := (stage1 eslot etmp 1 [2; 3; 4] true found3).
Notation eteam2 := (stage2 eslot etmp phrase 1 [2; 3; 4] found3).
Notation eteam3 := (stage3 eslot 1 [2; 3; 4] found3).
Lemma all_along_outsider n : Forall (outsider (λ x, x ∈ objects eslot etmp 1 [2; 3; 4] found3)) (all_along n).
Proof.
  constructor.
  - intros x [(j&_&->)|(v&_&->)]%in_objects; simpl; apply bool_decide_eq_false; unfold eslot, etmp; lia.
  - apply Forall_concat, Forall_fmap, Forall_forall. intros j _. repeat constructor; done.
Qed.
Example C69_at_work :
  fresh wFS eslot etmp 1 [2; 3; 4] found3 (init wFS) ∧ Forall (outsider (λ x, x ∈ objects eslot etmp 1 [2; 3; 4] found3)) (all_along 200) ∧ Forall (timely rc 1) (all_along 200) ∧
  vector (frun wP wFS rc fst id (init wFS, eteam1, [eteam2]) (all_along 200)) =
    Some (true, Some <$> [text "the"; text "cat"; text "the"; text "emu"], 3, [0; 3; 9; 2; 6], 0) ∧
  vector (frun wP wFS rc fst id (init wFS, eteam1, [eteam2; eteam3]) (all_along 200)) = Some (true, [None; None; None; None], 1, [2], 0).
Proof.
  split; [done|]. split; [apply all_along_outsider|]. split; [apply Forall_forall; intros [[l|]|] _; done|]. vm_compute. split_and!; reflexivity.
Qed.
Example C69_exception :
  match frun wP wFS rc fst id (init wFS, eteam1, [eteam2]) (laps 30 0 true) with
  | Some (s, ps, rest) => ((λ c, match c with (false, Ret b) => Some b | _ => None end) <$> ps !! 1) = Some (Some false) ∧ List.length rest = 1 ∧ size (vars s) = 0
  | None => False
  end.
Proof. vm_compute. split_and!; reflexivity. Qed.

Print Assumptions C69_words.
Print Assumptions C69_tokenize.
Print Assumptions C69_chunks.
Print Assumptions C69_parse.
Print Assumptions C69_all.
Print Assumptions C69_completes.
Print Assumptions C69_throws.
