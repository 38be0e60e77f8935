(** C75: example/parallel.cpp with concurrent_factory.  In every schedule, and
    whatever the collector does meanwhile, each element of the vector ends up with
    its word; with the collector's passes there is one entry for each different
    word, and in the end none. *)
From Coq Require Import Ascii String.
From Verif Require Import SerializeProofs Policies Instances Client PropTeam ParallelProofs PropParallel.
From Verif Require Import ConTeam PropConcurrent ConcurrentGc PropConHeld.
From Verif Require Import ConcurrentProofs PropConClient PropConTeam.

(** as [PropTeam.entries_count], for the entries of concurrent_factory *)
Lemma centries_count {K A R V L} (P : Core.policy K A R V) (lab : R → L) (s : state (R:=R) (K:=K) (A:=A)) (ts : list (tree L)) :
  (∀ a n, ents s !! a = Some n → ∃ T, cshows P lab s a T) → (∀ a b T U, cshows P lab s a T → cshows P lab s b U → (a = b ↔ T = U)) →
  NoDup ts → (∀ T, (∃ a, cshows P lab s a T) ↔ T ∈ ts) → size (ents s) = length ts.
Proof.
  intros Q1 Q2 Hts HT.
  assert (∃ bs, Forall2 (λ T a, cshows P lab s a T) ts bs) as [bs Has].
  { assert (Hall' : Forall (λ T, ∃ a, cshows P lab s a T) ts) by (apply Forall_forall; intros T HTc; by apply HT). clear HT Hts.
    induction Hall' as [|T ts [a Ha] _ [bs IH]]; [by exists []|]. exists (a :: bs). by constructor. }
  assert (Hnd : NoDup bs).
  { apply NoDup_alt. intros i j a Hi Hj. destruct (Forall2_lookup_r _ _ _ _ _ Has Hi) as (T&HTi&HTa). destruct (Forall2_lookup_r _ _ _ _ _ Has Hj) as (U&HUj&HUa).
    assert (T = U) as -> by (by apply (Q2 a a T U)). by eapply NoDup_lookup. }
  assert (Hp : (map_to_list (ents s)).*1 ≡ₚ bs).
  { apply NoDup_Permutation; [apply NoDup_fst_map_to_list|done|]. intros a. rewrite elem_of_list_fmap. split.
    - intros ([a' n]&->&Hn%elem_of_map_to_list). simpl. destruct (Q1 a' n Hn) as [T HTa]. assert (HTc : T ∈ ts) by (apply HT; eauto).
      apply elem_of_list_lookup in HTc as [i Hi]. destruct (Forall2_lookup_l _ _ _ _ _ Has Hi) as (b&Hb&HbT).
      assert (a' = b) as -> by (by apply (Q2 a' b T T)). by eapply elem_of_list_lookup_2.
    - intros Ha. apply elem_of_list_lookup in Ha as [i Hi]. destruct (Forall2_lookup_r _ _ _ _ _ Has Hi) as (T&_&HTa).
      inversion HTa as [h n ts' Hn _]; subst. exists (a, n). split; [done|]. by apply elem_of_map_to_list. }
  rewrite (Forall2_length _ _ _ Has). rewrite <- (Permutation_length Hp), fmap_length. by rewrite map_to_list_length || reflexivity.
Qed.

Lemma cwP_ok : ConcurrentInv.policy_ok weqk (λ _, True) wP.
Proof. apply ConcurrentPolicies.default_policy_ok. intros a ks k. unfold wmk. intros; by simplify_eq. Qed.

Section Machine.
  Context (slot : nat → var) (tmp : tid → var).
  Context (Hslot : ∀ i j, slot i = slot j → i = j) (Htmp : ∀ u v, tmp u = tmp v → u = v) (Hne : ∀ i u, slot i ≠ tmp u).
  Context (txt : word) (u : tid) (us : list tid) (Hus : NoDup (u :: us)) (Hn : 1 ≤ length us) (room : bool).
  (** thread 0 is the collector *)
  Context (Hgc : gc_tid ∉ u :: us).
  Context (css : list (list (nat * nat))) (Hcss : chunks txt (length us) = Some css).
  Notation state := (state (R:=wkey) (K:=wkey) (A:=word)).
  Notation reachable := (reachable wP weqk).
  Notation env := (gmap var (tree word)).
  Notation N := (length (concat css)).
  Notation cshows := (cshows wP fst).
  Notation objects := (PropParallel.objects slot tmp u us css).
  Notation Own := (λ x, x ∈ objects).
  Notation cfrun := (cfrun wP weqk fst id).
  Notation team1 := (stage1 slot tmp u us room css).
  Notation team2 := (stage2 slot tmp txt u us css).
  Notation team3 := (stage3 slot u us css).
  Notation run := (run wP weqk).
  Notation passes := (passes wP weqk).
  Notation filled := (filled slot tmp txt css).
  Notation inside := (inside slot tmp u us css).
  Notation the_words := (the_words txt).
  Notation agreesM := (cagrees wP fst Own).
  Implicit Types (s : state) (M : env).
  Notation plus L := (L wFS wHF rc 0 (eq_refl : Core.lck rc = true) slot tmp Hslot Htmp Hne txt u us Hus Hn room css Hcss) (only parsing).
  Notation plus0 L := (L wFS wHF rc (eq_refl : Core.lck rc = true) slot tmp Hslot Htmp Hne txt u us Hus Hn) (only parsing).

  (** ** The calls are those [Concurrent.v] has *)
  Lemma flat_copies x k : ∀ j p, flat p → flat (Parallel.copies slot x j k p).
  Proof. induction k as [|k IH]; intros j p Hp; cbn; [done|]. intros _. by apply IH. Qed.
  Lemma flat_make v r k : flat (make_words slot tmp v r k).
  Proof. unfold make_words. cbn. intros [|]; [|done]. destruct r; [by apply flat_copies|done]. Qed.
  Lemma flat_fill v ws : ∀ out, flat (fill slot tmp v out ws).
  Proof. induction ws as [|w ws IH]; intros out; cbn; [done|]. intros [|]; [|done]. intros _ _. apply IH. Qed.
  Lemma flat_destroy xs : flat (destroy_all xs (Ret true : prog (A:=word) (L:=word) (O:=bool))).
  Proof. induction xs as [|x xs IH]; cbn; [done|]. by intros _. Qed.
  Lemma con_team_of p qs : NoDup (u :: qs.*1) → gc_tid ∉ u :: qs.*1 → flat p → (∀ v q, (v, q) ∈ qs → flat q) → con_team (team_of u p qs).
  Proof.
    intros Hnd Hg Hp Hq v w q. rewrite team_lookup by done. intros [-> [[-> ->]|Hv]].
    - split; [|done]. intros ->. apply Hg. by left.
    - split; [|by eapply Hq]. intros ->. apply Hg. right. apply elem_of_list_fmap. by exists (gc_tid, q).
  Qed.
  Lemma con_idle p : flat p → con_team (team_of u p (Parallel.idle us)).
  Proof.
    intros Hp. apply con_team_of; rewrite ?idle_fst; try done. by intros v q (v'&[= -> ->]&_)%elem_of_list_fmap.
  Qed.
  Lemma con1 : con_team team1.
  Proof. apply con_idle, flat_make. Qed.
  Lemma con2 : con_team team2.
  Proof.
    apply con_team_of; rewrite ?(plus0 fillers_fst css Hcss); try done. intros v q ([[v' k] c]&[= -> ->]&_)%elem_of_list_fmap. apply flat_fill.
  Qed.
  Lemma con3 : con_team team3.
  Proof. apply con_idle, flat_destroy. Qed.

  Definition cfresh s : Prop := ∀ x, x ∈ objects → vars s !! x = None.
  Lemma cfresh_agrees s : cfresh s ↔ agreesM s ∅.
  Proof.
    split.
    - intros E. split; [intros x Hx; rewrite lookup_empty; by apply E|intros x [? Hx]; by rewrite lookup_empty in Hx].
    - intros [E _] x Hx. specialize (E x Hx). by rewrite lookup_empty in E.
  Qed.
  Definition cstill s : Prop := ∀ v, v ∈ u :: us → stack s v = [].
  Lemma cstill_team s : cstill s → ∀ v, is_Some (team1 !! v) → stack s v = [].
  Proof. intros Hs v Hv. apply Hs. apply elem_of_dom in Hv. unfold stage1 in Hv. rewrite team_dom, idle_fst in Hv. by apply elem_of_list_to_set in Hv. Qed.
  Definition cresult s : Prop := ∀ j w, the_words !! j = Some w → ∃ v, value_of s (slot j) = Some v ∧ cshows s v.1 (Tree w []).
  Lemma filled_cresult s M : agreesM s M → filled M → cresult s.
  Proof.
    intros [Ha _] [H1 _] j w. rewrite (plus0 the_words_css css Hcss), list_lookup_fmap. destruct (concat css !! j) as [be|] eqn:Hbe; [|done]. intros [= <-].
    assert (Hin : slot j ∈ objects) by (apply in_objects; left; exists j; split; [by eapply lookup_lt_Some|done]).
    specialize (Ha _ Hin). by rewrite (H1 j be Hbe) in Ha.
  Qed.
  (** [ls]: the collector's work, in enough passes, from [s] *)
  Definition collected s (ls : list (label (A:=word))) : Prop :=
    Forall gc_label ls ∧ ∃ G, garbage wP s G ∧ (size G < passes s ls ∨ (todo s = None ∧ size G ≤ passes s ls)).

  Lemma gc_vars ls : ∀ s s', ConcurrentInv.Inv wP weqk (λ _, True) s → Forall gc_label ls → run s ls = Next s' → vars s' = vars s.
  Proof.
    induction ls as [|l ls IH]; intros s s' HI Hl Hr; simpl in *; [by simplify_eq|]. apply Forall_cons in Hl as [Hl Hls].
    destruct (step wP weqk s l) as [s1| |] eqn:E; [|by apply (IH s s')|done].
    rewrite (IH s1 s'); [|by eapply (step_next wP weqk (λ _, True) weqk_equivalence cwP_ok)|done|done].
    by eapply (gc_step wP weqk (λ _, True)).
  Qed.

  Theorem C75_parse s ls : reachable s → cstill s → cfresh s → Forall (coutsider Own) ls →
    ∃ s' ps' rest', cfrun (s, team1, [team2]) ls = Some (s', ps', rest') ∧ reachable s' ∧
      (rest' = [] → all_fine id ps' = true → cstill s' ∧ cresult s' ∧
        ∀ gs s2, ConcurrentGc.idle s' → (∀ y, is_Some (vars s' !! y) → y ∈ objects) → collected s' gs → run s' gs = Next s2 →
          cresult s2 ∧ size (ents s2) = length (remove_dups the_words) ∧ ∀ T, (∃ a, cshows s2 a T) ↔ ∃ w, w ∈ the_words ∧ T = Tree w []).
  Proof.
    intros Hre Hst Hfr Ho.
    destruct (C74_stages wP weqk (λ _, True) weqk_equivalence cwP_ok fst wP_keys wmakes wmakes_make id Own (room = true) rc 0 s ∅ team1 [team2] (λ M, inside M ∧ filled M) ls)
      as (s'&ps'&rest'&E&Hre'&Hd&_&Hend); [done|apply con1|by constructor; [apply con2|]|by apply cstill_team|by apply cfresh_agrees| |done|].
    { apply (plus safe1). intros M' Hin Hb. split; [apply (plus0 dom12 room css Hcss)|]. by apply (plus safe2). }
    exists s', ps', rest'. split; [done|]. split; [done|]. intros -> Hf. destruct (Hend eq_refl Hf) as (Hst'&M&Hag&Hin&Hfi).
    pose proof (filled_cresult s' M Hag Hfi) as Hres. split.
    { intros v Hv. apply Hst'. apply elem_of_dom. rewrite Hd. unfold stage1. rewrite team_dom, idle_fst. by apply elem_of_list_to_set. }
    split; [done|]. intros gs s2 Hid Hall (Hgl&G&HG&Hp) Hrun.
    pose proof (reach_inv wP weqk (λ _, True) weqk_equivalence cwP_ok s' Hre') as HI'.
    pose proof (gc_vars gs s' s2 HI' Hgl Hrun) as Hv2.
    destruct (C73_keeps wP weqk (λ _, True) weqk_equivalence cwP_ok s' gs s2 Hre' Hid Hgl Hrun) as [_ Hkeep].
    destruct (C72_minimal wP weqk (λ _, True) weqk_equivalence cwP_ok fst wP_keys s' gs s2 G Hre' Hid HG Hgl Hrun Hp) as (Q1&Q2&Q3).
    assert (Hleaf : ∀ x w, (∃ v, value_of s' x = Some v ∧ cshows s' v.1 (Tree w [])) → ∃ v, value_of s2 x = Some v ∧ cshows s2 v.1 (Tree w [])).
    { intros x w ([h r]&Hv&Hs). unfold value_of in Hv. destruct (vars s' !! x) as [[h'|]|] eqn:Ex; [|done|done]. destruct (ents s' !! h') as [n|] eqn:En; [|done]. simplify_eq.
      destruct (Hkeep h n (held_var _ _ _ _ Ex) En) as (n'&En'&Er). exists (h, n_rep n'). unfold value_of. rewrite Hv2, Ex, En'. split; [done|].
      cbn [fst snd] in *. inversion Hs as [h0 n0 ts Hn0 Hk Ht Hlab]; subst. assert (n0 = n) as -> by congruence. rewrite <- Er. econstructor; [exact En'|]. rewrite Er. apply Forall2_nil_inv_r in Hk as ->. constructor. }
    assert (Hres2 : cresult s2) by (intros j w Hj; by apply Hleaf, Hres).
    split; [done|].
    assert (HT : ∀ T, (∃ a, cshows s2 a T) ↔ ∃ w, w ∈ the_words ∧ T = Tree w []).
    { intros T. rewrite Q3. split.
      - intros (y&v&W&path&Hv&HW&Hsub).
        assert (∃ w, w ∈ the_words ∧ W = Tree w []) as (w&Hw&->).
        { assert (Hy : is_Some (vars s' !! y)) by (unfold value_of in Hv; rewrite Hv2 in Hv; destruct (vars s' !! y); [eauto|done]).
          pose proof (Hall y Hy) as Hyo. destruct Hag as [Ha _]. pose proof (Ha y Hyo) as Hd'. apply in_objects in Hyo as [(j&Hj&->)|(w&Hw&->)].
          - destruct (lookup_lt_is_Some_2 (concat css) j Hj) as [be Hbe]. destruct Hfi as [Hfi _]. rewrite (Hfi j be Hbe) in Hd'. apply Hleaf in Hd' as (v'&Hv'&Hs'). simplify_eq.
            exists (text_at txt be). split; [rewrite (plus0 the_words_css css Hcss); apply elem_of_list_fmap; exists be; split; [done|by eapply elem_of_list_lookup_2]|].
            by apply (Q2 v.1 v.1).
          - destruct Hfi as [_ Hfi]. rewrite (Hfi w) in Hd'. cbn in Hd'. rewrite Hd' in Hy. by destruct Hy. }
        exists w. split; [done|]. destruct path; [by injection Hsub|done].
      - intros (w&Hw&->). apply elem_of_list_lookup in Hw as [j Hj]. destruct (Hres2 j w Hj) as (v&Hv&Hs). by exists (slot j), v, (Tree w []), []. }
    split; [|done]. rewrite <- (fmap_length (λ w, Tree w [])). eapply (centries_count wP fst s2); [done|done| |].
    - apply NoDup_fmap_2; [by intros ? ? [= ->]|apply NoDup_remove_dups].
    - intros T. rewrite HT, elem_of_list_fmap. split; intros (w&?&?); exists w; [by rewrite elem_of_remove_dups|by rewrite <- elem_of_remove_dups].
  Qed.
  (** nothing is left, and the collector empties the container *)
  Theorem C75_all s ls : reachable s → cstill s → cfresh s → Forall (coutsider Own) ls →
    ∃ s' ps' rest', cfrun (s, team1, [team2; team3]) ls = Some (s', ps', rest') ∧ reachable s' ∧
      (rest' = [] → all_fine id ps' = true → cfresh s' ∧
        ∀ gs s2, ConcurrentGc.idle s' → (∀ y, is_Some (vars s' !! y) → y ∈ objects) → collected s' gs → run s' gs = Next s2 → size (ents s2) = 0).
  Proof.
    intros Hre Hst Hfr Ho.
    destruct (C74_stages wP weqk (λ _, True) weqk_equivalence cwP_ok fst wP_keys wmakes wmakes_make id Own (room = true) rc 0 s ∅ team1 [team2; team3] (λ M, M = ∅) ls)
      as (s'&ps'&rest'&E&Hre'&Hd&_&Hend); [done|apply con1|by constructor; [apply con2|constructor; [apply con3|]]|by apply cstill_team|by apply cfresh_agrees| |done|].
    { apply (plus safe1). intros M' Hin Hb. split; [apply (plus0 dom12 room css Hcss)|]. apply (plus safe2); [done|done|].
      intros M2 Hin2 Hf2. split; [apply (plus0 dom12 room css Hcss)|]. by apply (plus safe3). }
    exists s', ps', rest'. split; [done|]. split; [done|]. intros -> Hf. destruct (Hend eq_refl Hf) as (_&M&Hag&->). apply cfresh_agrees in Hag. split; [done|].
    intros gs s2 Hid Hall (Hgl&G&HG&Hp) Hrun. pose proof (reach_inv wP weqk (λ _, True) weqk_equivalence cwP_ok s' Hre') as HI'.
    pose proof (gc_vars gs s' s2 HI' Hgl Hrun) as Hv2.
    apply map_size_empty_iff. apply map_empty. intros a. apply eq_None_not_Some. intros Ha.
    apply (C73_exact wP weqk (λ _, True) weqk_equivalence cwP_ok s' gs s2 G Hre' Hid HG Hgl Hrun Hp) in Ha.
    induction Ha as [x h Hx|]; [|done]. rewrite Hv2 in Hx. rewrite Hag in Hx; [done|]. by apply Hall.
  Qed.
  (** all can come to its end *)
  Theorem C75_completes s : room = true → reachable s → cstill s → cfresh s →
    ∃ ls s' ps', Forall (coutsider Own) ls ∧ cfrun (s, team1, [team2]) ls = Some (s', ps', []) ∧ all_fine id ps' = true ∧ cstill s' ∧ cresult s' ∧
    ∃ ls2 s2 ps2, Forall (coutsider Own) ls2 ∧ cfrun (s, team1, [team2; team3]) ls2 = Some (s2, ps2, []) ∧ all_fine id ps2 = true ∧ cfresh s2.
  Proof.
    intros Hr Hre Hst Hfr.
    destruct (C74_stages_complete wP weqk (λ _, True) weqk_equivalence cwP_ok fst wP_keys wmakes wmakes_make id Own (room = true) rc 0 [team2] Hr s ∅ team1 (λ M, inside M ∧ filled M))
      as (ls&s'&ps'&M&E1&E3&E4&Hre'&Hq&Hag&Hin&Hfi); [done|apply con1|by constructor; [apply con2|]|by apply cstill_team|by apply cfresh_agrees| |].
    { apply (plus safe1). intros M' Hin Hb. split; [apply (plus0 dom12 room css Hcss)|]. by apply (plus safe2). }
    assert (Hout : Forall (coutsider Own) ls) by (eapply Forall_impl; [exact E1|]; intros l; apply cpeaceful_outsider).
    destruct (C75_parse s ls Hre Hst Hfr Hout) as (s1&ps1&rest1&E&_&Hend). rewrite E3 in E. injection E as <- <- <-. destruct (Hend eq_refl E4) as (Hs1&Hs2&_).
    exists ls, s', ps'. split; [done|]. split; [done|]. split; [done|]. split; [done|]. split; [done|].
    destruct (C74_stages_complete wP weqk (λ _, True) weqk_equivalence cwP_ok fst wP_keys wmakes wmakes_make id Own (room = true) rc 0 [team2; team3] Hr s ∅ team1 (λ M, M = ∅))
      as (ls2&s2&ps2&M2&F1&F3&F4&F5&F6&F7&->); [done|apply con1|by constructor; [apply con2|constructor; [apply con3|]]|by apply cstill_team|by apply cfresh_agrees| |].
    { apply (plus safe1). intros M' Hin' Hb. split; [apply (plus0 dom12 room css Hcss)|]. apply (plus safe2); [done|done|].
      intros M2 Hin2 Hf2. split; [apply (plus0 dom12 room css Hcss)|]. by apply (plus safe3). }
    exists ls2, s2, ps2. split; [eapply Forall_impl; [exact F1|]; intros l; apply cpeaceful_outsider|]. split; [done|]. split; [done|]. by apply cfresh_agrees.
  Qed.
  (** an exception in the main thread leaves nothing *)
  Theorem C75_throws s ls s' ps' : reachable s → cstill s → cfresh s → Forall (λ l, coutsider Own (CFTeam l)) ls →
    ctrun wP weqk fst (s, team1) ls = Some (s', ps') → ps' !! u = Some (false, Ret false) → cfresh s'.
  Proof.
    intros Hre Hst Hfr Ho Hrun Hu. pose proof (shares1 rc (eq_refl : Core.lck rc = true) slot tmp Hslot Htmp Hne txt u us Hus Hn css Hcss (make_words slot tmp u room N)) as Hsh.
    assert (H1 : team1 !! u = Some (false, make_words slot tmp u room N)) by (unfold stage1; apply team_lookup; [by rewrite idle_fst|eauto]).
    destruct (C74_team wP weqk (λ _, True) weqk_equivalence cwP_ok fst wP_keys (λ v x, x ∈ names1 slot tmp u us css v) wmakes wmakes_make (proj1 Hsh) s team1 (λ v, restr (names1 slot tmp u us css v) ∅) ls)
      as (s2&ps2&Ms2&E&_&_&Hps).
    - split; [done|]. split; [apply con1|]. intros v w p Hv. pose proof Hv as Hv'. unfold stage1 in Hv. rewrite team_lookup in Hv by (by rewrite idle_fst). destruct Hv as [-> Hv].
      split; [done|]. split; [by eapply cstill_team|]. split.
      + split; [|intros x; rewrite restr_lookup; case_bool_decide; [by rewrite lookup_empty|by intros [? ?]]].
        intros x Hx. rewrite restr_some, lookup_empty by done. unfold names1 in Hx. destruct (decide (v = u)); [by apply Hfr|by apply elem_of_nil in Hx].
      + destruct Hv as [[-> ->]|(v'&[= -> ->]&_)%elem_of_list_fmap].
        * eapply wp_safe; [apply wmakes_fun|apply (plus0 make_words_wp room css Hcss true)].
        * intros p' M' Hr. inversion Hr as [|? ? ? Hst' _]; subst; [left; eauto|]. inversion Hst'.
    - eapply Forall_impl; [exact Ho|]. intros l Hl. by eapply coutsider_stranger.
    - rewrite Hrun in E. injection E as <- <-. destruct (Hps u _ _ _ H1 Hu) as [Hr [_ Hag]].
      pose proof (wp_steps _ _ _ wmakes_fun _ _ _ _ _ (plus0 make_words_wp room css Hcss true) Hr) as [_ HM]. cbn in HM. rewrite HM in Hag.
      intros x Hx. destruct Hag as [Hag _]. unfold names1 in Hag. destruct (decide (u = u)); [|done]. specialize (Hag x Hx). by rewrite restr_some, lookup_empty in Hag by done.
  Qed.
End Machine.

(** ** Example: as in [PropParallel.v]; the collector makes passes meanwhile *)
Import Strings.String.
From Verif Require Import Concurrent.
Definition wtidy (k : nat) : list (label (A:=word)) :=
  List.concat (replicate k (LBegin :: List.concat ((λ h, [LLook h; LRun 0 false; LRun 0 false; LRun 0 false]) <$> seq 0 9) ++ [LEnd])).
Definition ctgo (b : bool) (v : tid) : list (cflab (A:=word)) := [CFTeam (CTGo v); CFTeam (CTEnv (LRun v b))].
Definition claps (n : nat) (b : bool) (gs : list (label (A:=word))) : list (cflab (A:=word)) :=
  List.concat (replicate n (ctgo b 1 ++ ctgo b 2 ++ ctgo b 3 ++ ctgo b 4 ++ map (λ l, CFTeam (CTEnv l)) (LRun 9 false :: gs) ++ [CFJoin])).
Definition call_along (n : nat) : list (cflab (A:=word)) :=
  CFTeam (CTEnv (LStart 9 (ONew 2 (text "emu") []))) :: claps n false (wtidy 1).
Definition cvector (c : option (state (R:=wkey) (K:=wkey) (A:=word) * gmap tid (bool * prog (A:=word) (L:=word) (O:=bool)) * list (gmap tid (bool * prog (A:=word) (L:=word) (O:=bool))))) :=
  match c with
  | Some (s, ps, []) => Some (all_fine id ps, (λ j, (λ v, v.2.1) <$> ConcurrentSpec.value_of s (eslot j)) <$> seq 0 4, size (ents s), (map_to_list (vars s)).*1, List.length (stack s 1 ++ stack s 2 ++ stack s 3 ++ stack s 4 ++ stack s 9))
  | _ => None
  end.
(** the container after the collector's passes *)
Definition swept (c : option (state (R:=wkey) (K:=wkey) (A:=word) * gmap tid (bool * prog (A:=word) (L:=word) (O:=bool)) * list (gmap tid (bool * prog (A:=word) (L:=word) (O:=bool))))) k :=
  match c with
  | Some (s, _, []) => match run wP weqk s (wtidy k) with Next s' => Some (size (ents s), size (ents s')) | _ => None end
  | _ => None
  end.
Lemma call_along_outsider n : Forall (coutsider (λ x, x ∈ PropParallel.objects eslot etmp 1 [2; 3; 4] found3)) (call_along n).
Proof.
  constructor.
  - intros x [(j&_&->)|(v&_&->)]%in_objects; simpl; apply bool_decide_eq_false; unfold eslot, etmp; lia.
  - unfold claps. apply Forall_concat, Forall_replicate. apply Forall_forall. intros l Hl.
    assert (Hb : forallb (λ l : cflab (A:=word), match l with CFTeam (CTEnv (LStart _ _)) => false | _ => true end)
      (ctgo false 1 ++ ctgo false 2 ++ ctgo false 3 ++ ctgo false 4 ++ map (λ l, CFTeam (CTEnv l)) (LRun 9 false :: wtidy 1) ++ [CFJoin]) = true) by (vm_compute; reflexivity).
    rewrite forallb_forall in Hb. apply elem_of_list_In in Hl. specialize (Hb l Hl). by destruct l as [[[| | | |]|]|].
Qed.
Example C75_at_work :
  cfresh eslot etmp 1 [2; 3; 4] found3 (init (R:=wkey) (K:=wkey) (A:=word)) ∧ gc_tid ∉ [1; 2; 3; 4] ∧
  Forall (coutsider (λ x, x ∈ PropParallel.objects eslot etmp 1 [2; 3; 4] found3)) (call_along 60) ∧
  cvector (cfrun wP weqk fst id (init, eteam1, [eteam2]) (call_along 60)) =
    Some (true, Some <$> [text "the"; text "cat"; text "the"; text "emu"], 3, [0; 3; 9; 2; 6], 0) ∧
  cvector (cfrun wP weqk fst id (init, eteam1, [eteam2; eteam3]) (call_along 100)) = Some (true, [None; None; None; None], 1, [2], 0) ∧
  swept (cfrun wP weqk fst id (init, eteam1, [eteam2]) (claps 60 false [])) 1 = Some (4, 3) ∧
  swept (cfrun wP weqk fst id (init, eteam1, [eteam2; eteam3]) (claps 100 false [])) 1 = Some (4, 0).
Proof.
  split; [done|]. split; [set_solver|]. split; [apply call_along_outsider|]. vm_compute. split_and!; reflexivity.
Qed.
Example C75_exception :
  match cfrun wP weqk fst id (init, eteam1, [eteam2]) (claps 30 true []) with
  | Some (s, ps, rest) => ((λ c, match c with (false, Ret b) => Some b | _ => None end) <$> ps !! 1) = Some (Some false) ∧ List.length rest = 1 ∧ size (vars s) = 0
  | None => False
  end.
Proof. vm_compute. split_and!; reflexivity. Qed.

Print Assumptions C75_parse.
Print Assumptions C75_all.
Print Assumptions C75_completes.
Print Assumptions C75_throws.
