(** C67: example/html.cpp with its flyweights.  Whatever other threads do, it
    writes what [Html.v] says about plain values, leaves no object behind, and
    between scanning and producing there is one entry for each different tag,
    context and character. *)
From Coq Require Import Ascii.
From Verif Require Import SerializeProofs CoreRace Policies Instances PropInner Client PropClient PropHtml HtmlProofs.
From Verif Require Import Factory.

Section Machine.
  Context (FS : factory hkey) (HF : factory_spec heqk FS) (cfg : config) (t0 t : tid) (Ht : lck cfg = false → t = t0).
  Context (nm : nat → var) (Hnm : ∀ i j, nm i = nm j → i = j) (grows : nat → growth).
  Notation state := (state (R:=hkey) (K:=hkey) (A:=H) FS).
  Notation own := (named nm).
  Notation reachable := (reachable hP FS cfg t0).
  Notation prun := (prun hP FS cfg fst t).
  Implicit Types s : state.
  Definition unused s : Prop := ∀ i, vars s !! nm i = None.
  Lemma unused_agrees s : unused s ↔ agrees hP FS fst own s ∅.
  Proof.
    split.
    - intros E. split; [intros x [i ->]; rewrite lookup_empty; apply E|intros x [? Hx]; by rewrite lookup_empty in Hx].
    - intros [E _] i. specialize (E (nm i) (ex_intro _ i eq_refl)). by rewrite lookup_empty in E.
  Qed.
  (** the text ends in an odd number of '<' *)
  Definition cut_off (html : word) : Prop := ∃ pre k, html = pre ++ replicate (2 * k + 1) "<"%char ∧ last pre ≠ Some "<"%char.

  Theorem C67_main s html ls :
    reachable s → stack s t = [] → unused s → Forall (foreign own t) ls → Forall (on_time cfg t0) ls →
    ∃ s' w p, prun (s, false, main nm grows html) ls = Some (s', w, p) ∧ reachable s' ∧
      ∀ o, p = Ret o → w = false ∧ stack s' t = [] ∧
        match o with
        | Wrote out => unused s' ∧ ∃ cs, scan_html html = Some cs ∧ out = produce_html (shuffle cs) ∧
            (plain_tags cs → scan_html out = Some (shuffle cs))
        | Threw => unused s'
        | Past => cut_off html
        end.
  Proof.
    intros Hre Hst Hun Hf Hon. pose proof (wp_main nm Hnm grows true html) as Hw.
    destruct (C64_transparent hP FS cfg heqk (λ _, True) heqk_equivalence hP_ok HF t0 fst hP_keys own hmakes hmakes_make t Ht s (main nm grows html) ∅ ls)
      as (s'&w&p&M&Hp&Hre'&Hr&Hw'); [done|done|by apply unused_agrees|by eapply (wp_safe _ _ _ _ _ hmakes_fun)|done|done|].
    exists s', w, p. split; [done|]. split; [done|]. intros o ->. destruct w; [by destruct Hw' as (?&?&?)|]. destruct Hw' as [Hst' Hag].
    pose proof (wp_steps own hmakes true hmakes_fun _ _ _ _ _ Hw Hr) as Ho. split; [done|]. split; [done|]. cbn in Ho. destruct o as [out| |].
    - destruct Ho as (->&cs&Hcs&->). split; [by apply unused_agrees|]. exists cs. split; [done|]. split; [done|]. intros Hp'. by eapply C66_main.
    - by apply C66_past_end.
    - destruct Ho as [-> _]. by apply unused_agrees.
  Qed.
  Theorem C67_completes s html : (∀ n, grows n ≠ Fails) → ¬ cut_off html → reachable s → stack s t = [] → unused s →
    ∃ ls s' cs, Forall (foreign own t) ls ∧ Forall (on_time cfg t0) ls ∧ scan_html html = Some cs ∧
      prun (s, false, main nm grows html) ls = Some (s', false, Ret (Wrote (produce_html (shuffle cs)))) ∧
      reachable s' ∧ unused s' ∧ quiescent s' ∧ (trk cfg = true → vars s' = ∅ → heap s' = ∅).
  Proof.
    intros Hg Hc Hre Hst Hun.
    destruct (C64_completes hP FS cfg heqk (λ _, True) heqk_equivalence hP_ok HF t0 fst hP_keys own hmakes hmakes_make t Ht (main nm grows html) s ∅)
      as (ls&s'&o&M&H1&H2&H3&Hr&Hre'&Hq&Hag); [done|done|by apply unused_agrees|by eapply (wp_safe _ _ _ _ _ hmakes_fun), wp_main|].
    pose proof (wp_steps own hmakes false hmakes_fun _ _ _ _ _ (wp_main nm Hnm grows false html) Hr) as Ho. cbn in Ho. destruct o as [out| |].
    - destruct Ho as (->&cs&Hcs&->). exists ls, s', cs. split; [by eapply quiet_foreign|]. split; [done|]. split; [done|]. split; [done|]. split; [done|].
      split; [by apply unused_agrees|]. split; [done|].
      intros Htr Hv. by eapply (empty_at_end hP FS cfg heqk (λ _, True) heqk_equivalence hP_ok HF t0).
    - destruct Hc. by apply C66_past_end.
    - destruct Ho as [_ [?|[n Hn]]]; [done|by destruct (Hg n)].
  Qed.

  (** between scanning and producing *)
  Definition contents (cs : list chr) : list (tree H) :=
    (chr_tree <$> remove_dups cs) ++ (ctx_tree <$> remove_dups cs.*2) ++ (tag_tree <$> remove_dups (concat cs.*2)).
  Lemma contents_nodup cs : NoDup (contents cs).
  Proof.
    unfold contents. apply NoDup_app. split; [apply NoDup_fmap; [apply _|apply NoDup_remove_dups]|]. split.
    - intros T (x&->&_)%elem_of_list_fmap [(y&Hy&_)%elem_of_list_fmap|(y&Hy&_)%elem_of_list_fmap]%elem_of_app; done.
    - apply NoDup_app. split; [apply NoDup_fmap; [apply _|apply NoDup_remove_dups]|]. split; [|apply NoDup_fmap; [apply _|apply NoDup_remove_dups]].
      intros T (x&->&_)%elem_of_list_fmap (y&Hy&_)%elem_of_list_fmap; done.
  Qed.
  Lemma contents_sub cs T : T ∈ contents cs ↔ ∃ x path, x ∈ cs ∧ subtree (chr_tree x) path = Some T.
  Proof.
    unfold contents. rewrite !elem_of_app, !elem_of_list_fmap. split.
    - intros [(x&->&Hx)|[(c&->&Hc)|(g&->&Hg)]].
      + rewrite elem_of_remove_dups in Hx. by exists x, [].
      + rewrite elem_of_remove_dups in Hc. apply elem_of_list_fmap in Hc as (x&->&Hx). by exists x, [0].
      + rewrite elem_of_remove_dups in Hg. apply elem_of_list_In, in_concat in Hg as (c&Hc%elem_of_list_In&Hg%elem_of_list_In). apply elem_of_list_fmap in Hc as (x&->&Hx).
        apply elem_of_list_lookup in Hg as [j Hj]. exists x, [0; j]. split; [done|]. simpl. by rewrite list_lookup_fmap, Hj.
    - intros (x&path&Hx&Hp). destruct path as [|i path]; [injection Hp as <-; left; exists x; by rewrite elem_of_remove_dups|]. simpl in Hp.
      destruct i as [|i]; [|done]. simpl in Hp. destruct path as [|j path].
      { injection Hp as <-. right; left. exists x.2. rewrite elem_of_remove_dups. split; [done|]. apply elem_of_list_fmap. eauto. }
      simpl in Hp. rewrite list_lookup_fmap in Hp. destruct (x.2 !! j) as [g|] eqn:Hg; [|done]. simpl in Hp. destruct path; [|by destruct path]. injection Hp as <-.
      right; right. exists g. rewrite elem_of_remove_dups. split; [done|]. apply elem_of_list_In, in_concat. exists x.2.
      split; apply elem_of_list_In; [apply elem_of_list_fmap; eauto|by eapply elem_of_list_lookup_2].
  Qed.
  Theorem C67_shared s html ls s' w xs :
    reachable s → stack s t = [] → unused s → Forall (foreign own t) ls → Forall (on_time cfg t0) ls →
    prun (s, false, scan_main nm grows html) ls = Some (s', w, Ret (Some xs)) →
    ∃ cs, scan_html html = Some cs ∧ Forall2 (λ x c, ∃ v, value_of s' x = Some v ∧ shows hP FS fst s' v.1 (chr_tree c)) xs cs ∧
      (trk cfg = true → quiescent s' → (∀ y, is_Some (vars s' !! y) → own y) →
        size (heap s') = length (remove_dups cs) + length (remove_dups cs.*2) + length (remove_dups (concat cs.*2)) ∧
        ∀ T, (∃ a, shows hP FS fst s' a T) ↔ T ∈ contents cs).
  Proof.
    intros Hre Hst Hun Hf Hon Hrun. pose proof (wp_scan_main nm Hnm grows true html) as Hw.
    destruct (C64_transparent hP FS cfg heqk (λ _, True) heqk_equivalence hP_ok HF t0 fst hP_keys own hmakes hmakes_make t Ht s (scan_main nm grows html) ∅ ls)
      as (s1&w1&p&M&Hp&Hre'&Hr&Hw'); [done|done|by apply unused_agrees|by eapply (wp_safe _ _ _ _ _ hmakes_fun)|done|done|].
    rewrite Hrun in Hp. injection Hp as <- <- <-. destruct w; [by destruct Hw' as (?&?&?)|]. destruct Hw' as [_ [Hag Hown]].
    pose proof (wp_steps own hmakes true hmakes_fun _ _ _ _ _ Hw Hr) as (cs&l&m&Hcs&->&Hl&Hh).
    exists cs. split; [done|].
    assert (Hval : ∀ x T, (x, T) ∈ l → ∃ v, value_of s' x = Some v ∧ shows hP FS fst s' v.1 T).
    { intros x T Hx. assert (HM : M !! x = Some T) by (by eapply have_lookup). assert (Ho : own x) by (apply Hown; eauto).
      pose proof (Hag x Ho) as Hv. by rewrite HM in Hv. }
    split.
    { apply Forall2_same_length_lookup_2; [by rewrite fmap_length, <- (fmap_length chr_tree cs), <- Hl, fmap_length|].
      intros i x c Hx Hc. apply list_lookup_fmap_Some in Hx as ([y T]&Hy&->). apply Hval. apply elem_of_list_lookup. exists i. rewrite Hy. do 2 f_equal.
      assert (E : l.*2 !! i = Some T) by (by rewrite list_lookup_fmap, Hy). rewrite Hl, list_lookup_fmap, Hc in E. by injection E. }
    intros Htr Hq Hall.
    destruct (C64_minimal hP FS cfg heqk (λ _, True) heqk_equivalence hP_ok HF t0 fst hP_keys s' Htr Hre' Hq) as (Q1&Q2&Q3).
    assert (HT : ∀ T, (∃ a, shows hP FS fst s' a T) ↔ T ∈ contents cs).
    { intros T. rewrite Q3, contents_sub. split.
      - intros (y&u&W&path&Hu&HW&Hsub).
        assert (∃ c, (y, chr_tree c) ∈ l ∧ c ∈ cs) as (c&Hy&Hc).
        { destruct u as [h r]. apply (value_of_var hP FS cfg heqk (λ _, True) HF t0) in Hu as (Hy&_); [|by apply (reach_inv hP FS cfg heqk (λ _, True) heqk_equivalence hP_ok HF t0)].
          assert (Hoy : own y) by (apply Hall; eauto). pose proof (Hag y Hoy) as Hd. destruct (M !! y) as [U|] eqn:EM; [|unfold denotes in Hd; congruence].
          destruct Hh as (_&HM&_). apply HM in EM. assert (HU : U ∈ l.*2) by (apply elem_of_list_fmap; by exists (y, U)).
          rewrite Hl in HU. apply elem_of_list_fmap in HU as (c&->&Hc). eauto. }
        destruct (Hval _ _ Hy) as (v&Hv&Hsv). assert (v = u) as -> by congruence. assert (W = chr_tree c) as -> by (by apply (Q2 u.1 u.1)). eauto.
      - intros (c&path&Hc&Hsub). assert (HU : chr_tree c ∈ l.*2) by (rewrite Hl; apply elem_of_list_fmap; eauto).
        apply elem_of_list_fmap in HU as ([y U]&E&Hy). simpl in E. subst U. destruct (Hval _ _ Hy) as (v&Hv&Hsv). by exists y, v, (chr_tree c), path. }
    split; [|done].
    (* an address for each tree *)
    assert (∃ bs, Forall2 (λ T a, shows hP FS fst s' a T) (contents cs) bs) as [bs Has].
    { assert (Hall' : Forall (λ T, ∃ a, shows hP FS fst s' a T) (contents cs)) by (apply Forall_forall; intros T HTc; by apply HT). clear HT.
      induction Hall' as [|T ts [a Ha] _ [bs IH]]; [by exists []|]. exists (a :: bs). by constructor. }
    assert (Hnd : NoDup bs).
    { apply NoDup_alt. intros i j a Hi Hj. destruct (Forall2_lookup_r _ _ _ _ _ Has Hi) as (T&HTi&HTa). destruct (Forall2_lookup_r _ _ _ _ _ Has Hj) as (U&HUj&HUa).
      assert (T = U) as -> by (by apply (Q2 a a T U)). eapply NoDup_lookup; [apply (contents_nodup cs)|done|done]. }
    assert (Hp : (map_to_list (heap s')).*1 ≡ₚ bs).
    { apply NoDup_Permutation; [apply NoDup_fst_map_to_list|done|]. intros a. rewrite elem_of_list_fmap. split.
      - intros ([a' n]&->&Hn%elem_of_map_to_list). simpl. destruct (Q1 a' n Hn) as [T HTa]. assert (HTc : T ∈ contents cs) by (apply HT; eauto).
        apply elem_of_list_lookup in HTc as [i Hi]. destruct (Forall2_lookup_l _ _ _ _ _ Has Hi) as (b&Hb&HbT).
        assert (a' = b) as -> by (by apply (Q2 a' b T T)). by eapply elem_of_list_lookup_2.
      - intros Ha. apply elem_of_list_lookup in Ha as [i Hi]. destruct (Forall2_lookup_r _ _ _ _ _ Has Hi) as (T&_&HTa).
        assert (∃ n, heap s' !! a = Some n) as [n Hn] by (inversion HTa; subst; eauto using entry_heap). exists (a, n). split; [done|]. by apply elem_of_map_to_list. }
    transitivity (length (contents cs)).
    - rewrite (Forall2_length _ _ _ Has), <- Hp, fmap_length. done.
    - unfold contents. rewrite !app_length, !fmap_length. lia.
  Qed.
End Machine.

(** ** Example: a page in which thread 2 meanwhile keeps a tag and a context *)
Import Strings.String.
Definition hhash (k : hkey) : nat :=
  match k.1 with HTag t => foldr (λ c n, nat_of_ascii c + 3 * n) 0 t.1 | HCtx => foldr plus 1 k.2 | HChr c => nat_of_ascii c + foldr plus 0 k.2 end.
Definition hFS : factory hkey := hashed_factory hhash heqk 1 igrow.
Definition hHF : factory_spec heqk hFS.
Proof.
  apply hashed_factory_spec; [apply heqk_equivalence|]. intros k l [H1%bool_decide_eq_true H2%bool_decide_eq_true]%andb_true_iff.
  unfold hhash. by rewrite H1, H2.
Defined.
Definition even (n : nat) : var := 2 * n.
Lemma even_inj i j : even i = even j → i = j.
Proof. unfold even. lia. Qed.
Definition growth3 (n : nat) : growth := if n mod 3 =? 0 then Moves else Fits.
Definition rounds (n i : nat) (b : bool) : list (clab (A:=H)) :=
  List.concat ((λ j, [Go; Env (LRun 1 (Choice (100 + 2 * (i + j)) b)); Env (LRun 2 (Choice (101 + 2 * (i + j)) false))]) <$> seq 0 n).
Definition meanwhile (n : nat) : list (clab (A:=H)) :=
  [Env (LStart 2 (ONew 1 (HTag (text "b", [])) []))] ++ rounds 30 0 false ++ [Env (LStart 2 (ONew 3 HCtx [1]))] ++ rounds n 30 false.
Definition at_end {O} (c : option (state (R:=hkey) (K:=hkey) (A:=H) hFS * bool * prog (A:=H) (L:=H) (O:=O))) : option (O * nat * list var) :=
  match c with
  | Some (s, false, Ret o) => Some (o, size (heap s), (map_to_list (vars s)).*1)
  | _ => None
  end.
Lemma meanwhile_foreign n : Forall (foreign (named even) 1) (meanwhile n).
Proof.
  assert (Hr : ∀ n i b, Forall (foreign (named even) 1) (rounds n i b)).
  { intros m i b. apply Forall_concat, Forall_fmap, Forall_forall. intros j _. repeat constructor; simpl; done. }
  unfold meanwhile. apply Forall_app_2; [|apply Forall_app_2; [apply Hr|apply Forall_app_2; [|apply Hr]]]; (constructor; [|constructor]); intros _ x [j ->]; simpl; apply bool_decide_eq_false; unfold even; lia.
Qed.
Definition doc : word := text "<B>aa<i x>c</b>d".
Example C67_at_work :
  unused hFS even (init hFS) ∧ Forall (foreign (named even) 1) (meanwhile 500) ∧ Forall (on_time rc 1) (meanwhile 500) ∧
  at_end (prun hP hFS rc fst 1 (init hFS, false, main even growth3 doc) (meanwhile 500)) =
    Some (Wrote (text "<b>a<i x>c</i>a</b>d"), 2, [1; 3]).
Proof. split; [done|]. split; [apply meanwhile_foreign|]. split; [apply Forall_forall; intros [l|] _; done|]. vm_compute. reflexivity. Qed.
(** three characters, three contexts, two tags *)
Example C67_once : let c := prun hP hFS rc fst 1 (init hFS, false, scan_main even growth3 doc) (rounds 500 0 false) in
  match at_end c with Some (Some xs, n, ys) => List.length xs = 4 ∧ n = 8 ∧ List.length ys = 4 | _ => False end ∧
  match c with Some (s, _, _) => stack s 1 = [] ∧ stack s 2 = [] | None => False end.
Proof. vm_compute. split_and!; reflexivity. Qed.
Example C67_wrong :
  at_end (prun hP hFS rc fst 1 (init hFS, false, main even growth3 (text "a<")) (rounds 500 0 false)) = Some (Past, 2, [4]) ∧
  at_end (prun hP hFS rc fst 1 (init hFS, false, main even growth3 doc) (rounds 60 0 false ++ rounds 300 60 true)) = Some (Threw, 0, []).
Proof. vm_compute. split_and!; reflexivity. Qed.

Print Assumptions C67_main.
Print Assumptions C67_completes.
Print Assumptions C67_shared.
