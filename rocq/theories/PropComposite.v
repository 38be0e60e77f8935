(** C65: example/composite.cpp.  Whatever other threads do, the program accepts
    exactly the balanced texts, prints them with one token per line, indented by
    the number of open parentheses, leaves no object behind, and between parsing
    and printing the factory holds each list or string once. *)
From Coq Require Import Ascii.
From Verif Require Import SerializeProofs CoreRace Policies Instances PropInner Client PropClient CompositeProofs.

(** ** What the text says *)
Definition separates (c : ascii) : Prop := c = " "%char ∨ c = "("%char ∨ c = ")"%char.
Definition ends_word (s : word) : Prop := match s with [] => True | c :: _ => separates c end.
Inductive written : list token → word → Prop :=
| W_nil : written [] []
| W_blank ts s : written ts s → written ts (" "%char :: s)
| W_open ts s : written ts s → written (Open :: ts) ("("%char :: s)
| W_close ts s : written ts s → written (Close :: ts) (")"%char :: s)
| W_word w ts s : w ≠ [] → Forall (λ c, ¬ separates c) w → ends_word s → written ts s → written (Word w :: ts) (w ++ s).

Fixpoint opens (ts : list token) : nat := match ts with [] => 0 | Open :: ts => S (opens ts) | _ :: ts => opens ts end.
Fixpoint closes (ts : list token) : nat := match ts with [] => 0 | Close :: ts => S (closes ts) | _ :: ts => closes ts end.
(** no parenthesis closes one that was not opened *)
Definition matched (ts : list token) : Prop := ∀ p q, ts = p ++ q → closes p ≤ opens p.
(** each token at its level *)
Definition indented (ts : list token) : list (nat * token) := imap (λ i tk, (opens (take i ts) - closes (take (S i) ts), tk)) ts.
Definition answer (ts : list token) (o : outcome) : Prop :=
  match o with
  | Printed ls => matched ts ∧ opens ts = closes ts ∧ ls = indented (Open :: ts ++ [Close])
  | Failed UnmatchedClose => ¬ matched ts
  | Failed UnmatchedOpen => matched ts ∧ opens ts ≠ closes ts
  | _ => False
  end.

(** ** The tokenizer *)
Lemma tokenize_word w : ∀ buf s, Forall (λ c, ¬ separates c) w → tokenize buf (w ++ s) = tokenize (reverse w ++ buf) s.
Proof.
  induction w as [|c w IH]; intros buf s Hw; [done|]. apply Forall_cons in Hw as [Hc Hw]. rewrite reverse_cons, <- app_assoc. simpl.
  unfold separates in Hc. rewrite !decide_False by tauto. by apply IH.
Qed.
Lemma tokenize_ends buf s : ends_word s → tokenize buf s = flush buf (tokenize [] s).
Proof. destruct s as [|c s]; [done|]. intros [->|[-> | ->]]; done. Qed.
Lemma flush_cons w l : w ≠ [] → flush (reverse w) l = Word w :: l.
Proof.
  intros Hw. unfold flush. destruct (reverse w) as [|c v] eqn:E; [|by rewrite <- E, reverse_involutive].
  destruct Hw. by rewrite <- (reverse_involutive w), E.
Qed.
Lemma flush_written buf ts s : Forall (λ c, ¬ separates c) buf → ends_word s → written ts s → written (flush buf ts) (reverse buf ++ s).
Proof.
  intros Hb He Hw. destruct buf as [|c buf]; [done|]. apply W_word; [|by apply Forall_reverse|done|done].
  intros E%(f_equal length). by rewrite reverse_length in E.
Qed.
Theorem C65_tokens ts s : written ts s ↔ tokenize [] s = ts.
Proof.
  split.
  - induction 1 as [|ts s _ IH|ts s _ IH|ts s _ IH|w ts s Hne Hw He _ IH]; [done|done|simpl; by rewrite IH|simpl; by rewrite IH|].
    by rewrite tokenize_word, tokenize_ends, app_nil_r, flush_cons, IH.
  - intros <-. enough (H : ∀ buf, Forall (λ c, ¬ separates c) buf → written (tokenize buf s) (reverse buf ++ s)) by by apply (H []).
    induction s as [|c s IH]; intros buf Hb; cbn [tokenize]; [apply flush_written; [done|done|constructor]|].
    repeat case_decide; subst.
    + apply flush_written; [done|by left|]. constructor. by apply (IH []).
    + apply flush_written; [done|by right; left|]. constructor. by apply (IH []).
    + apply flush_written; [done|by right; right|]. constructor. by apply (IH []).
    + specialize (IH (c :: buf)). rewrite reverse_cons, <- app_assoc in IH. apply IH. constructor; [|done]. intros [?|[?|?]]; done.
Qed.

(** ** Counting *)
Definition never (d : nat) (ts : list token) : Prop := ∀ p q, ts = p ++ q → closes p ≤ d + opens p.
Lemma never_nil d : never d [].
Proof. intros p q E. symmetry in E. apply app_eq_nil in E as [-> _]. simpl. lia. Qed.
Lemma never_open d ts : never d (Open :: ts) ↔ never (S d) ts.
Proof.
  split; intros H p q E; [pose proof (H (Open :: p) q) as H'; simpl in H'; rewrite E in H'; specialize (H' eq_refl); lia|].
  destruct p as [|tk p]; simpl; [lia|]. injection E as <- E. specialize (H p q E). simpl. lia.
Qed.
Lemma never_close d ts : never d (Close :: ts) ↔ 0 < d ∧ never (d - 1) ts.
Proof.
  split.
  - intros H. pose proof (H [Close] ts eq_refl) as H1. simpl in H1. split; [lia|]. intros p q E.
    pose proof (H (Close :: p) q) as H'. simpl in H'. rewrite E in H'. specialize (H' eq_refl). lia.
  - intros [Hd H] p q E. destruct p as [|tk p]; simpl; [lia|]. injection E as <- E. specialize (H p q E). simpl. lia.
Qed.
Lemma never_word d w ts : never d (Word w :: ts) ↔ never d ts.
Proof.
  split; intros H p q E; [pose proof (H (Word w :: p) q) as H'; simpl in H'; rewrite E in H'; by specialize (H' eq_refl)|].
  destruct p as [|tk p]; simpl; [lia|]. injection E as <- E. specialize (H p q E). simpl. lia.
Qed.
Lemma ptree_spec ts : ∀ fs cur,
  match ptree ts fs cur with
  | inl UnmatchedClose => ¬ never (length fs) ts
  | inl UnmatchedOpen => never (length fs) ts ∧ length fs + opens ts ≠ closes ts
  | inl Threw => False
  | inr _ => never (length fs) ts ∧ length fs + opens ts = closes ts
  end.
Proof.
  induction ts as [|[| |w] ts IH]; intros fs cur; cbn [ptree opens closes].
  - destruct fs; simpl; (split; [apply never_nil|lia]).
  - specialize (IH (cur :: fs) []). cbn [length] in IH. pose proof (never_open (length fs) ts) as Hn.
    destruct (ptree ts (cur :: fs) []) as [[]|]; [tauto|split; [tauto|lia]|done|split; [tauto|lia]].
  - pose proof (never_close (length fs) ts) as Hn. destruct fs as [|up fs]; cbn [length] in *; [intros ?; assert (0 < 0) by tauto; lia|].
    specialize (IH fs (up ++ [Tree None cur])). rewrite Nat.sub_succ, Nat.sub_0_r in Hn. assert (0 < S (length fs)) by lia.
    destruct (ptree ts fs (up ++ [Tree None cur])) as [[]|]; [tauto|split; [tauto|lia]|done|split; [tauto|lia]].
  - specialize (IH fs (cur ++ [Tree (Some w) []])). pose proof (never_word (length fs) w ts) as Hn.
    destruct (ptree ts fs (cur ++ [Tree (Some w) []])) as [[]|]; [tauto|split; [tauto|lia]|done|split; [tauto|lia]].
Qed.
Fixpoint sofar (fs : list (list (tree L))) (cur : list (tree L)) : list token :=
  match fs with
  | [] => concat (map toks cur)
  | f :: fs => sofar fs f ++ Open :: concat (map toks cur)
  end.
Lemma sofar_snoc fs cur T : sofar fs (cur ++ [T]) = sofar fs cur ++ toks T.
Proof. destruct fs; simpl; rewrite map_app, concat_app; simpl; rewrite app_nil_r; [done|]. by rewrite <- app_assoc. Qed.
Lemma ptree_toks ts : ∀ fs cur T, ptree ts fs cur = inr T → toks T = Open :: sofar fs cur ++ ts ++ [Close].
Proof.
  induction ts as [|[| |w] ts IH]; intros fs cur T; cbn [ptree].
  - destruct fs; [|done]. by intros [= <-].
  - intros H%IH. rewrite H. simpl. by rewrite <- app_assoc.
  - destruct fs as [|up fs]; [done|]. intros H%IH. rewrite H, sofar_snoc. simpl. rewrite <- !app_assoc. simpl. rewrite <- app_assoc. done.
  - intros H%IH. rewrite H, sofar_snoc. simpl. by rewrite <- app_assoc.
Qed.
Lemma layout_count ts : ∀ d, never d ts → layout d ts = imap (λ i tk, (d + opens (take i ts) - closes (take (S i) ts), tk)) ts.
Proof.
  induction ts as [|[| |w] ts IH]; intros d Hn; [done|..]; cbn [layout imap].
  - apply never_open in Hn. rewrite IH by done. apply (f_equal2 cons); [f_equal; simpl; lia|]. apply imap_ext. intros i tk _. unfold compose. simpl. f_equal; lia.
  - apply never_close in Hn as [Hd Hn]. rewrite IH by done. apply (f_equal2 cons); [f_equal; simpl; lia|]. apply imap_ext. intros i tk _. unfold compose. simpl. f_equal; lia.
  - apply never_word in Hn. rewrite IH by done. apply (f_equal2 cons); [f_equal; simpl; lia|]. apply imap_ext. intros i tk _. unfold compose. simpl. f_equal; lia.
Qed.
Lemma never_app p : ∀ d q, never d p → never (d + opens p - closes p) q → never d (p ++ q).
Proof.
  induction p as [|[| |w] p IH]; intros d q Hp Hq; simpl in *; [by replace (d + 0 - 0) with d in Hq by lia|..].
  - apply never_open. apply never_open in Hp. apply IH; [done|]. by replace (S d + opens p - closes p) with (d + S (opens p) - closes p) by lia.
  - apply never_close. apply never_close in Hp as [? Hp]. split; [done|]. apply IH; [done|]. by replace (d - 1 + opens p - closes p) with (d + opens p - S (closes p)) by lia.
  - apply never_word. apply never_word in Hp. by apply IH.
Qed.

(** ** The program with plain values *)
Section Main.
  Context (nm : nat → var) (Hnm : ∀ i j, nm i = nm j → i = j) (grows : nat → growth) (thr : bool).
  Notation env := (gmap var (tree L)).
  Lemma matched_never ts : matched ts ↔ never 0 ts.
  Proof. done. Qed.
  Lemma wp_main str : wp (named nm) lmakes thr (main nm grows str) ∅
    (λ o M, M = ∅ ∧ (answer (tokenize [] str) o ∨ o = Failed Threw ∧ may_throw grows thr)).
  Proof.
    unfold main. set (ts := tokenize [] str). pose proof (ptree_spec ts [] []) as Hsp. cbn [length] in Hsp. rewrite Nat.add_0_l in Hsp.
    apply (wp_parse nm Hnm grows thr ts [] []); [apply have_nothing|..].
    - intros M x T m HT Hh. simpl in HT. rewrite HT in Hsp. destruct Hsp as [Hn Hc]. pose proof (ptree_toks _ _ _ _ HT) as Htk. simpl in Htk.
      pose proof Hh as (_&Hx&_). assert (HxT : M !! x = Some T) by (apply Hx; by left).
      eapply (wp_print nm thr _ _ M x T [] T); [done|done| |].
      + pose proof (depth_toks T) as Hd. rewrite Htk in Hd. simpl in Hd. rewrite app_length in Hd. simpl in Hd. lia.
      + cbn. exists T. split; [done|]. apply have_drop in Hh as [_ Hh]. split; [by eapply have_empty|]. left. split; [done|]. split; [done|].
        pose proof (lines_layout T 0 []) as Hl. rewrite !app_nil_r in Hl. rewrite <- Hl, Htk. apply layout_count.
        apply never_open. apply never_app; [intros p q E; specialize (Hn p q E); lia|]. rewrite Hc. apply never_close. split; [lia|apply never_nil].
    - intros M er -> Her. cbn. split; [done|]. destruct Her as [Her|[-> ?]]; [|by right]. left. simpl in Her. rewrite Her in Hsp. destruct er; done.
  Qed.
  (** the tree that is built; a string has no elements *)
  Definition reads (ts : list token) (T : tree L) : Prop := toks T = Open :: ts ++ [Close].
  Lemma wp_parse_list str : wp (named nm) lmakes thr (parse_list nm grows str) ∅
    (λ o M, match o with
            | inl x => ∃ T, M = {[x := T]} ∧ reads (tokenize [] str) T ∧ matched (tokenize [] str) ∧ opens (tokenize [] str) = closes (tokenize [] str)
            | inr e => M = ∅ ∧ (answer (tokenize [] str) (Failed e) ∨ e = Threw ∧ may_throw grows thr)
            end).
  Proof.
    unfold parse_list. set (ts := tokenize [] str). pose proof (ptree_spec ts [] []) as Hsp. cbn [length] in Hsp. rewrite Nat.add_0_l in Hsp.
    apply (wp_parse nm Hnm grows thr ts [] []); [apply have_nothing|..].
    - intros M x T m HT Hh. simpl in HT. rewrite HT in Hsp. cbn. exists T. split; [|split; [by apply (ptree_toks ts [] [])|done]].
      destruct (have_drop nm M x T [] m Hh) as [HxT Hd]. apply have_empty in Hd. apply map_eq. intros y.
      destruct (decide (y = x)) as [->|Hy]; [by rewrite lookup_singleton|]. rewrite lookup_singleton_ne by done.
      by rewrite <- (lookup_delete_ne M x y), Hd.
    - intros M er -> Her. cbn. split; [done|]. destruct Her as [Her|[-> ?]]; [|by right]. left. simpl in Her. rewrite Her in Hsp. destruct er; done.
  Qed.
End Main.

(** ** The program on the machine *)
Section Machine.
  Context (FS : factory lkey) (HF : factory_spec leqk FS) (cfg : config) (t0 t : tid) (Ht : lck cfg = false → t = t0).
  Context (nm : nat → var) (Hnm : ∀ i j, nm i = nm j → i = j) (grows : nat → growth).
  Notation state := (state (R:=lkey) (K:=lkey) (A:=L) FS).
  Notation own := (named nm).
  Notation reachable := (reachable lP FS cfg t0).
  Notation prun := (prun lP FS cfg fst t).
  Implicit Types s : state.
  Definition unused s : Prop := ∀ i, vars s !! nm i = None.
  Lemma unused_agrees s : unused s ↔ agrees lP FS fst own s ∅.
  Proof.
    split.
    - intros H. split; [intros x [i ->]; rewrite lookup_empty; apply H|intros x [? Hx]; by rewrite lookup_empty in Hx].
    - intros [H _] i. specialize (H (nm i) (ex_intro _ i eq_refl)). by rewrite lookup_empty in H.
  Qed.

  Theorem C65_main s str ts ls : written ts str →
    reachable s → stack s t = [] → unused s → Forall (foreign own t) ls → Forall (on_time cfg t0) ls →
    ∃ s' w p, prun (s, false, main nm grows str) ls = Some (s', w, p) ∧ reachable s' ∧
      ∀ o, p = Ret o → w = false ∧ stack s' t = [] ∧ unused s' ∧ (o = Failed Threw ∨ answer ts o).
  Proof.
    intros Hts%C65_tokens Hre Hst Hun Hf Hon. subst ts.
    pose proof (wp_main nm Hnm grows true str) as Hw.
    destruct (C64_transparent lP FS cfg leqk (λ _, True) leqk_equivalence lP_ok HF t0 fst lP_keys own lmakes lmakes_make t Ht s (main nm grows str) ∅ ls)
      as (s'&w&p&M&Hp&Hre'&Hr&Hw'); [done|done|by apply unused_agrees|by eapply (wp_safe _ _ _ _ _ lmakes_fun)|done|done|].
    exists s', w, p. split; [done|]. split; [done|]. intros o ->. destruct w; [by destruct Hw' as (?&?&?)|]. destruct Hw' as [Hst' Hag].
    pose proof (wp_steps own lmakes true lmakes_fun _ _ _ _ _ Hw Hr) as [-> Ho]. split; [done|]. split; [done|]. split; [by apply unused_agrees|].
    destruct Ho as [?|[? _]]; [by right|by left].
  Qed.
  Theorem C65_completes s str ts : written ts str → (∀ n, grows n ≠ Fails) →
    reachable s → stack s t = [] → unused s →
    ∃ ls s' o, Forall (foreign own t) ls ∧ Forall (on_time cfg t0) ls ∧ prun (s, false, main nm grows str) ls = Some (s', false, Ret o) ∧ answer ts o ∧
      reachable s' ∧ unused s' ∧ quiescent s' ∧ (trk cfg = true → vars s' = ∅ → heap s' = ∅).
  Proof.
    intros Hts%C65_tokens Hg Hre Hst Hun. subst ts.
    destruct (C64_completes lP FS cfg leqk (λ _, True) leqk_equivalence lP_ok HF t0 fst lP_keys own lmakes lmakes_make t Ht (main nm grows str) s ∅)
      as (ls&s'&o&M&H1&H2&H3&Hr&Hre'&Hq&Hag); [done|done|by apply unused_agrees|by eapply (wp_safe _ _ _ _ _ lmakes_fun), wp_main|].
    pose proof (wp_steps own lmakes false lmakes_fun _ _ _ _ _ (wp_main nm Hnm grows false str) Hr) as [-> Ho].
    exists ls, s', o. split; [by eapply quiet_foreign|]. split; [done|]. split; [done|].
    split; [destruct Ho as [?|[_ [?|[n Hn]]]]; [done|done|by destruct (Hg n)]|]. split; [done|]. split; [by apply unused_agrees|]. split; [done|].
    intros Htr Hv. by eapply (empty_at_end lP FS cfg leqk (λ _, True) leqk_equivalence lP_ok HF t0).
  Qed.
  (** between parsing and printing *)
  Theorem C65_shared s str ts ls s' w x : written ts str →
    reachable s → stack s t = [] → unused s → Forall (foreign own t) ls → Forall (on_time cfg t0) ls →
    prun (s, false, parse_list nm grows str) ls = Some (s', w, Ret (inl x)) →
    matched ts ∧ opens ts = closes ts ∧ ∃ T v, reads ts T ∧ value_of s' x = Some v ∧ shows lP FS fst s' v.1 T ∧
      (trk cfg = true → quiescent s' → (∀ y, is_Some (vars s' !! y) → own y) →
        (∀ a n, heap s' !! a = Some n → ∃ U, shows lP FS fst s' a U) ∧
        (∀ a b U, shows lP FS fst s' a U → shows lP FS fst s' b U → a = b) ∧
        ∀ U, (∃ a, shows lP FS fst s' a U) ↔ ∃ path, subtree T path = Some U).
  Proof.
    intros Hts%C65_tokens Hre Hst Hun Hf Hon Hrun. subst ts.
    pose proof (wp_parse_list nm Hnm grows true str) as Hw.
    destruct (C64_transparent lP FS cfg leqk (λ _, True) leqk_equivalence lP_ok HF t0 fst lP_keys own lmakes lmakes_make t Ht s (parse_list nm grows str) ∅ ls)
      as (s1&w1&p&M&Hp&Hre'&Hr&Hw'); [done|done|by apply unused_agrees|by eapply (wp_safe _ _ _ _ _ lmakes_fun)|done|done|].
    rewrite Hrun in Hp. injection Hp as <- <- <-. destruct w; [by destruct Hw' as (?&?&?)|]. destruct Hw' as [_ [Hag Hown]].
    pose proof (wp_steps own lmakes true lmakes_fun _ _ _ _ _ Hw Hr) as (T&->&HT&Hm&Hc). split; [done|]. split; [done|].
    assert (Hx : own x) by (apply Hown; rewrite lookup_singleton; eauto). pose proof (Hag x Hx) as Hv. rewrite lookup_singleton in Hv. destruct Hv as (v&Hv&Hsh).
    exists T, v. split; [done|]. split; [done|]. split; [done|]. intros Htr Hq Hall.
    destruct (C64_minimal lP FS cfg leqk (λ _, True) leqk_equivalence lP_ok HF t0 fst lP_keys s' Htr Hre' Hq) as (H1&H2&H3). split; [done|].
    split; [intros a b U Ha Hb; by apply (H2 a b U U)|]. intros U. rewrite H3. split.
    - intros (y&u&W&path&Hu&HW&Hsub). exists path.
      assert (y = x) as ->.
      { destruct u as [h r]. apply (value_of_var lP FS cfg leqk (λ _, True) HF t0) in Hu as (Hy&_); [|by apply (reach_inv lP FS cfg leqk (λ _, True) leqk_equivalence lP_ok HF t0)].
        assert (Hoy : own y) by (apply Hall; eauto). pose proof (Hag y Hoy) as Hd. destruct (decide (y = x)) as [|Hne]; [done|].
        rewrite lookup_singleton_ne in Hd by done. unfold denotes in Hd. congruence. }
      assert (u = v) as -> by congruence. assert (W = T) as -> by (by apply (H2 v.1 v.1 W T)). done.
    - intros [path Hsub]. by exists x, v, T, path.
  Qed.
End Machine.

(** ** Example: "a (b a) (b a)" while thread 2 makes "a" and the list (a) *)
Import Strings.String.
Definition text (s : String.string) : word := String.list_ascii_of_string s.
Definition lhash (k : lkey) : nat := match k.1 with Some w => foldr (λ c n, nat_of_ascii c + 3 * n) 0 w | None => foldr plus 0 k.2 end.
Definition lFS : factory lkey := hashed_factory lhash leqk 1 igrow.
Definition lHF : factory_spec leqk lFS.
Proof.
  apply hashed_factory_spec; [apply leqk_equivalence|]. intros k l [H1%bool_decide_eq_true H2%bool_decide_eq_true]%andb_true_iff.
  unfold lhash. by rewrite H1, H2.
Defined.
Definition two (n : nat) : var := 2 * n.
Lemma two_inj i j : two i = two j → i = j.
Proof. unfold two. lia. Qed.
Definition growth2 (n : nat) : growth := if n mod 2 =? 0 then Moves else Fits.
Definition rounds (n i : nat) (b : bool) : list (clab (A:=L)) :=
  List.concat ((λ j, [Go; Env (LRun 1 (Choice (100 + 2 * (i + j)) b)); Env (LRun 2 (Choice (101 + 2 * (i + j)) false))]) <$> seq 0 n).
Definition meanwhile (n : nat) : list (clab (A:=L)) :=
  [Env (LStart 2 (ONew 1 (Some (text "a")) []))] ++ rounds 30 0 false ++ [Env (LStart 2 (ONew 3 None [1]))] ++ rounds n 30 false.
Definition at_end {O} (c : option (state (R:=lkey) (K:=lkey) (A:=L) lFS * bool * prog (A:=L) (L:=L) (O:=O))) : option (O * nat * list var) :=
  match c with
  | Some (s, false, Ret o) => Some (o, size (heap s), (map_to_list (vars s)).*1)
  | _ => None
  end.
Lemma meanwhile_foreign n : Forall (foreign (named two) 1) (meanwhile n).
Proof.
  assert (Hr : ∀ n i b, Forall (foreign (named two) 1) (rounds n i b)).
  { intros m i b. apply Forall_concat, Forall_fmap, Forall_forall. intros j _. repeat constructor; simpl; done. }
  unfold meanwhile. apply Forall_app_2; [|apply Forall_app_2; [apply Hr|apply Forall_app_2; [|apply Hr]]]; (constructor; [|constructor]); intros _ x [j ->]; simpl; apply bool_decide_eq_false; unfold two; lia.
Qed.
Example C65_printed :
  written [Word (text "a"); Open; Word (text "b"); Word (text "a"); Close; Open; Word (text "b"); Word (text "a"); Close] (text "a (b a) (b a)") ∧
  unused lFS two (init lFS) ∧ Forall (foreign (named two) 1) (meanwhile 400) ∧ Forall (on_time rc 1) (meanwhile 400) ∧
  at_end (prun lP lFS rc fst 1 (init lFS, false, main two growth2 (text "a (b a) (b a)")) (meanwhile 400)) =
    Some (Printed [(0, Open); (1, Word (text "a")); (1, Open); (2, Word (text "b")); (2, Word (text "a")); (1, Close);
                   (1, Open); (2, Word (text "b")); (2, Word (text "a")); (1, Close); (0, Close)], 2, [1; 3]).
Proof. split; [by apply C65_tokens|]. split; [done|]. split; [apply meanwhile_foreign|]. split; [apply Forall_forall; intros [l|] _; done|]. vm_compute. reflexivity. Qed.
(** each of "a", "b", (b a) and the whole once *)
Example C65_once : let c := prun lP lFS rc fst 1 (init lFS, false, parse_list two growth2 (text "a (b a) (b a)")) (rounds 400 0 false) in
  at_end c = Some (inl 28, 4, [28]) ∧ match c with Some (s, _, _) => stack s 1 = [] ∧ stack s 2 = [] | None => False end.
Proof. vm_compute. split_and!; reflexivity. Qed.
Example C65_wrong :
  at_end (prun lP lFS rc fst 1 (init lFS, false, main two growth2 (text "a (b a")) (meanwhile 400)) = Some (Failed UnmatchedOpen, 2, [1; 3]) ∧
  at_end (prun lP lFS rc fst 1 (init lFS, false, main two growth2 (text "a (b a)) (b")) (meanwhile 400)) = Some (Failed UnmatchedClose, 2, [1; 3]) ∧
  at_end (prun lP lFS rc fst 1 (init lFS, false, main two growth2 (text "a (b c)")) (rounds 30 0 false ++ rounds 300 60 true)) = Some (Failed Threw, 0, []).
Proof. vm_compute. split_and!; reflexivity. Qed.

Print Assumptions C65_tokens.
Print Assumptions C65_main.
Print Assumptions C65_completes.
Print Assumptions C65_shared.
