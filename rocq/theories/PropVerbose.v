(** C77: what verbose_factory_class of /repo/example/custom_factory.cpp says,
    and what the program there writes. *)
From Coq Require Import Ascii String.
From Verif Require Import SerializeProofs Policies Instances CoreRace PropInner PropCore PropStruct PropClient.
From Verif Require Import Factory Vectors PropParallel Parallel Verbose VerboseProofs.
Open Scope list_scope.

(** ** What is said of each key *)
Section Story.
  Context {K A R V : Type} (P : policy K A R V) (FS : factory K) (cfg : config).
  Context (eqv : K → K → bool) (good : R → Prop).
  Context (Heq : equivalence eqv) (HP : policy_ok eqv good P) (HF : factory_spec eqv FS) (t0 : tid).
  Notation VF := (verbose FS).
  Notation HV := (verbose_spec eqv Heq FS HF).
  Notation state := (state (R:=R) (K:=K) (A:=A) VF).
  Notation reachable := (reachable P VF cfg t0).

  (** whatever threads do: of each key, "new" is followed by any number of "hit"
      and then "del", again and again, and there is an entry with this key after
      "new" and until "del" *)
  Theorem C77_story (s : state) k : reachable s →
    ∃ b, story (heard eqv k (written FS s)) b ∧ (b = true ↔ ∃ a n, entry s a = Some n ∧ eqv (p_key P (n_rep n)) k = true).
  Proof using Heq HP HF. apply (story_of P FS cfg eqv good Heq HP HF). Qed.
  Lemma story_count l b : story l b → length (filter (λ d, d = New) l) = length (filter (λ d, d = Del) l) + if b then 1 else 0.
  Proof. clear. induction 1; simpl in *; [done|..]; rewrite ?filter_cons; repeat (case_decide; try done); simpl; lia. Qed.
  (** when there are no objects, as many have been erased as inserted *)
  Theorem C77_balance (s : state) k : trk cfg = true → reachable s → quiescent s → vars s = ∅ →
    length (filter (λ d, d = New) (heard eqv k (written FS s))) = length (filter (λ d, d = Del) (heard eqv k (written FS s))).
  Proof using Heq HP HF.
    intros Ht Hr Hq Hv. destruct (C77_story s k Hr) as (b&Hs&Hb). rewrite (story_count _ _ Hs). destruct b; [|lia].
    destruct (proj1 Hb eq_refl) as (a&n&Hn&_). apply entry_heap in Hn as [Hn _].
    rewrite (empty_at_end P VF cfg eqv good Heq HP HV t0 s Ht Hr Hq Hv) in Hn. done.
  Qed.
End Story.

(** ** The messages of a call *)
Section Lists.
  Implicit Types (l : list kind).
  Lemma story_dels l l0 b b0 : Forall (λ d, d = Del) l → story (l ++ l0) b → story l0 b0 → l = [] ∨ (l = [Del] ∧ b0 = true ∧ b = false).
  Proof.
    intros Hl. revert b. induction Hl as [|d l -> Hl IH]; intros b Hs H0; [by left|]. right. simpl in Hs. inversion Hs as [| | |l' Hs']; subst.
    destruct (IH _ Hs' H0) as [->|(->&_&?)]; [|done]. simpl in Hs'. by rewrite (story_fun _ _ _ Hs' H0).
  Qed.
  Lemma story_new l l0 b0 d : story (l ++ l0) true → story l0 b0 → filter (λ d, d ≠ Del) l = [d] → b0 = false ∨ Del ∉ l →
    l = [if b0 then Hit else New].
  Proof.
    intros Hs H0 Hf Hor. assert (∃ l1 l2, l = l1 ++ d :: l2 ∧ Forall (λ d, d = Del) l1 ∧ Forall (λ d, d = Del) l2 ∧ d ≠ Del) as (l1&l2&->&H1&H2&Hd).
    { clear -Hf. induction l as [|e l IH]; [done|]. rewrite filter_cons in Hf. case_decide as E.
      - injection Hf as -> Hf. exists [], l. split_and!; [done|constructor| |done]. apply Forall_forall. intros x Hx. destruct (decide (x = Del)); [done|].
        assert (x ∈ filter (λ d, d ≠ Del) l) as Hx' by (by apply elem_of_list_filter). rewrite Hf in Hx'. by apply elem_of_nil in Hx'.
      - subst e. destruct (IH Hf) as (l1&l2&->&?&?&?). exists (Del :: l1), l2. split_and!; [done|by constructor|done|done]. }
    rewrite <- app_assoc in Hs. simpl in Hs.
    assert (∃ b, story (d :: l2 ++ l0) b) as [b Hb].
    { clear -Hs. revert Hs. generalize true. induction l1 as [|e l1 IH]; intros b Hs; [eauto|]. simpl in Hs. inversion Hs; subst; eauto. }
    destruct (story_dels l1 _ _ _ H1 Hs Hb) as [->|(_&_&?)]; [|done].
    assert (∃ b', story (l2 ++ l0) b') as [b' Hb'] by (inversion Hb; subst; eauto).
    destruct (story_dels l2 _ _ _ H2 Hb' H0) as [->|(->&->&->)].
    - simpl in *. destruct d; [| |done]; inversion Hb as [|? Hi|? Hi|]; subst; by rewrite (story_fun _ _ _ H0 Hi).
    - destruct Hor as [?|Hn]; [done|]. destruct Hn. set_solver.
  Qed.
End Lists.

(** ** What a program writes, with plain values *)
Section Plain.
  Context {O : Type} (own : var → Prop).
  Notation env := (gmap var (tree word)).
  Notation prog := (prog (A:=word) (L:=word) (O:=O)).
  Notation plain := (plain (O:=O) own wmakes false).
  (** some object has this value *)
  Definition held (M : env) (w : word) : Prop := ∃ x, M !! x = Some (Tree w []).
  Inductive says : prog * env → list (kind * word) → prog * env → Prop :=
  | Sy_new x w k M M' : plain (Call (ONew x w []) k, M) (k true, M') → ¬ held M w → says (Call (ONew x w []) k, M) [(New, w)] (k true, M')
  | Sy_hit x w k M M' : plain (Call (ONew x w []) k, M) (k true, M') → held M w → says (Call (ONew x w []) k, M) [(Hit, w)] (k true, M')
  | Sy_del o k M M' w : (∀ x a ys, o ≠ ONew x a ys) → plain (Call o k, M) (k true, M') → held M w → ¬ held M' w → says (Call o k, M) [(Del, w)] (k true, M')
  | Sy_quiet p M p' M' : (∀ x a ys k, p ≠ Call (ONew x a ys) k) → plain (p, M) (p', M') → (∀ w, held M w → held M' w) → says (p, M) [] (p', M').
  Inductive traces : prog * env → list (kind * word) → prog * env → Prop :=
  | Tr_nil c : traces c [] c
  | Tr_step c o c1 o' c2 : says c o c1 → traces c1 o' c2 → traces c (o ++ o') c2.
  Lemma traces_app c o c1 o' c2 : traces c o c1 → traces c1 o' c2 → traces c (o ++ o') c2.
  Proof. induction 1; intros H'; [done|]. rewrite <- app_assoc. econstructor; eauto. Qed.
  Lemma traces_once c o c' : says c o c' → traces c o c'.
  Proof. intros H. rewrite <- (app_nil_r o). econstructor; [done|constructor]. Qed.

  Definition leafy (M : env) : Prop := ∀ x T, M !! x = Some T → ∃ w, T = Tree w [].
  Lemma plain_leafy thr (p p' : prog) M M' : leafy M → Client.plain own wmakes thr (p, M) (p', M') → leafy M'.
  Proof.
    intros HL Hp. assert (Hins : ∀ (M : env) x w, leafy M → leafy (<[x:=Tree w []]> M)).
    { intros N x w HN y T. destruct (decide (y = x)) as [->|]; [rewrite lookup_insert; intros [= <-]; eauto|]. rewrite lookup_insert_ne by done. apply HN. }
    inversion Hp as [x a ys ts l k0 M0 Hx HM Hts Hmk E1 E2|x a ys ts l k0 M0 _ Hx HM Hts Hmk E1 E2|x y T k0 M0 Hx HM HT E1 E2|x y T U k0 M0 HT HU E1 E2
          |x y T U k0 M0 HT HU E1 E2|x T k0 M0 HT E1 E2|x T k0 M0 HT E1 E2|x y path T U k0 M0 Hx HM HT HU E1 E2| |]; simplify_eq; try done.
    - destruct Hmk as [-> Hz]. destruct ts; [|done]. by apply Hins.
    - destruct (HL _ _ HT) as [w ->]. by apply Hins.
    - destruct (HL _ _ HU) as [w ->]. by apply Hins.
    - destruct (HL _ _ HU) as [w ->], (HL _ _ HT) as [w' ->]. by apply Hins, Hins.
    - intros y T' [_ HT']%lookup_delete_Some. eauto.
    - destruct (HL _ _ HT) as [w ->]. destruct path; simpl in HU; [simplify_eq; by apply Hins|done].
  Qed.
  (** a call ends the last use of at most one value *)
  Lemma plain_lost thr (p p' : prog) M M' : leafy M → Client.plain own wmakes thr (p, M) (p', M') → ∀ w w', held M w → ¬ held M' w → held M w' → ¬ held M' w' → w = w'.
  Proof.
    intros HL Hp. 
    assert (Hkeep : (∀ w, held M w → held M' w) → ∀ w w', held M w → ¬ held M' w → held M w' → ¬ held M' w' → w = w') by (intros H w w' Hw Hn; by destruct Hn; apply H).
    assert (Hone : (∃ x T, M !! x = Some T ∧ ∀ y, y ≠ x → M' !! y = M !! y) → ∀ w w', held M w → ¬ held M' w → held M w' → ¬ held M' w' → w = w').
    { intros (x&T&Hx&Hy) w w' [y1 H1] Hn1 [y2 H2] Hn2. destruct (decide (y1 = x)) as [->|E1]; [|destruct Hn1; exists y1; by rewrite Hy].
      destruct (decide (y2 = x)) as [->|E2]; [|destruct Hn2; exists y2; by rewrite Hy]. congruence. }
    assert (Hins : ∀ x T, M !! x = None → ∀ w, held M w → held (<[x:=T]> M) w).
    { intros x T Hx w [y Hy]. exists y. rewrite lookup_insert_ne; congruence. }
    inversion Hp as [x a ys ts l k0 M0 Hx HM Hts Hmk E1 E2|x a ys ts l k0 M0 _ Hx HM Hts Hmk E1 E2|x y T k0 M0 Hx HM HT E1 E2|x y T U k0 M0 HT HU E1 E2
          |x y T U k0 M0 HT HU E1 E2|x T k0 M0 HT E1 E2|x T k0 M0 HT E1 E2|x y path T U k0 M0 Hx HM HT HU E1 E2| |]; simplify_eq; try (by apply Hkeep).
    - apply Hkeep, Hins; done.
    - apply Hkeep, Hins; done.
    - apply Hone. exists x, T. split; [done|]. intros z Hz. by rewrite lookup_insert_ne.
    - apply Hkeep. intros w [z Hz]. destruct (decide (z = x)) as [->|Hzx]; [|destruct (decide (z = y)) as [->|Hzy]].
      + exists y. rewrite lookup_insert. congruence.
      + exists x. rewrite lookup_insert_ne, lookup_insert by done. congruence.
      + exists z. by rewrite !lookup_insert_ne by done.
    - apply Hone. exists x, T. split; [done|]. intros z Hz. by rewrite lookup_delete_ne.
    - apply Hkeep, Hins; done.
  Qed.
End Plain.

(** ** A program alone *)
Section Solo.
  Context {O : Type} (FS : factory wkey) (HF : factory_spec weqk FS) (cfg : config) (t0 : tid) (own : var → Prop) (t : tid).
  Context (Ht : lck cfg = false → t = t0) (Htr : trk cfg = true).
  Notation VF := (verbose FS).
  Notation HV := (verbose_spec weqk weqk_equivalence FS HF).
  Notation state := (state (R:=wkey) (K:=wkey) (A:=word) VF).
  Notation prog := (prog (A:=word) (L:=word) (O:=O)).
  Notation env := (gmap var (tree word)).
  Notation reachable := (reachable wP VF cfg t0).
  Notation agrees := (agrees wP VF fst own).
  Notation prun := (prun wP VF cfg fst t).
  Notation pstep := (pstep wP VF cfg fst t).
  Notation safe := (safe (O:=O) own wmakes).
  Notation plain' := (Client.plain (O:=O) own wmakes).
  Notation Inv := (Inv wP VF cfg weqk (λ _, True) HV t0).
  Notation sim := (sim (O:=O) wP VF cfg weqk t0 fst own wmakes t).
  Notation present := (present wP FS weqk).
  Implicit Types (s : state) (M : env).
  (** the steps of the program and, without exceptions, of its thread *)
  Definition alone (l : clab (A:=word)) : Prop :=
    match l with Go => True | Env (LRun u c) => u = t ∧ c_throw c = false | _ => False end.
  (** what has been written, in order *)
  Definition output s : list (kind * word) := reverse (prod_map id fst <$> written FS s).

  Lemma weqk_eq k k' : weqk k k' = true ↔ k = k'.
  Proof. unfold weqk. rewrite andb_true_iff, !bool_decide_eq_true. destruct k, k'; simpl. naive_solver. Qed.
  Definition bits (L : list (kind * wkey)) M : Prop := ∀ k, ∃ b, story (heard weqk k L) b ∧ (b = true ↔ k.2 = [] ∧ held M k.1).
  Lemma inv_of s : reachable s → Inv s.
  Proof. apply (reach_inv wP VF cfg weqk (λ _, True) weqk_equivalence wP_ok HV). Qed.
  Lemma denotes_present s x w : reachable s → denotes wP VF fst s x (Some (Tree w [])) → present s (w, []).
  Proof.
    intros Hre (v&Hv&Hs). pose proof (inv_of s Hre) as HI. destruct v as [h r]. apply (value_of_var wP VF cfg weqk (λ _, True) HV t0) in Hv as (_&n&Hn&_); [|done].
    exists h, n. split; [done|]. simpl in Hs. destruct (shows_inv wP VF fst s h n _ Hn Hs) as (ts&E&Hk). injection E as -> <-. apply weqk_eq.
    apply Forall2_nil_inv_r in Hk. destruct (n_rep n) as [w' ks]. simpl in *. by subst.
  Qed.
  Lemma rest_bits s M : reachable s → quiescent s → agrees s M → leafy M → (∀ x, own x ∨ vars s !! x = None) → bits (written FS s) M.
  Proof.
    intros Hre Hq [Ha1 Ha2] HL Hown k. destruct (story_of wP FS cfg weqk (λ _, True) weqk_equivalence wP_ok HF t0 s k Hre) as (b&Hs&Hb). exists b. split; [done|].
    rewrite Hb. pose proof (inv_of s Hre) as HI. split.
    - intros (a&n&Hn&E). apply weqk_eq in E. simpl in E. subst k.
      destruct (C64_minimal wP VF cfg weqk (λ _, True) weqk_equivalence wP_ok HV t0 fst wP_keys s Htr Hre Hq) as (H1&H2&H3).
      pose proof Hn as Hn'. apply entry_heap in Hn' as [Hn' _]. destruct (H1 a n Hn') as [T HT]. destruct (proj1 (H3 T) (ex_intro _ a HT)) as (x&v&W&path&Hv&HW&Hp).
      assert (Hx : own x) by (destruct (Hown x) as [|Hno]; [done|]; destruct v as [hv rv]; apply (value_of_var wP VF cfg weqk (λ _, True) HV t0) in Hv as (Hv&_); [congruence|done]).
      specialize (Ha1 x Hx). destruct (M !! x) as [U|] eqn:EM; simpl in Ha1.
      2: { destruct v as [hv rv]. apply (value_of_var wP VF cfg weqk (λ _, True) HV t0) in Hv as (Hv&_); [congruence|done]. }
      destruct Ha1 as (v'&Hv'&HU). assert (v' = v) as -> by congruence. assert (W = U) as -> by (by eapply H2).
      destruct (HL _ _ EM) as [w ->]. destruct path; simpl in Hp; [|done]. injection Hp as <-.
      destruct (shows_inv wP VF fst s a n _ Hn HT) as (ts&E&Hk). injection E as -> <-. apply Forall2_nil_inv_r in Hk. split; [done|]. by exists x.
    - intros [E [x Hx]]. destruct k as [w ks]. simpl in *. subst ks. eapply denotes_present; [done|]. rewrite <- Hx. apply Ha1, Ha2. eauto.
  Qed.

  Definition mid s (o : op (A:=word)) (L0 : list (kind * wkey)) M : Prop := ∃ D, written FS s = D ++ L0 ∧
    match o with
    | ONew x w ys => (∀ k, (Del, k) ∈ D → k.2 = [] → ¬ held M k.1) ∧ made wP FS s t x ∧
        ((asked D = [] ∧ fnds wP (stack s t) = [(w, [])]) ∨ (asked D = [(w, [])] ∧ fnds wP (stack s t) = []))
    | _ => asked D = [] ∧ fnds wP (stack s t) = []
    end.
  Lemma mid_step s c s' o (k : bool → prog) M L0 : reachable s → sim (s', true, Call o k) M → step wP VF cfg s (LRun t c) = Next s' → c_throw c = false →
    mid s o L0 M → mid s' o L0 M.
  Proof.
    intros Hre Hsim Hs Hc (D&HD&Hm). simpl in Hs. destruct (stack s t) as [|i rest] eqn:Est; [done|].
    destruct (exec_adds wP FS cfg weqk (λ _, True) weqk_equivalence wP_ok HF t0 s t i rest c s' (inv_of s Hre) Est Hs Hc) as (D'&HD'&Hl&Hor). rewrite Est in Hor.
    destruct Hsim as [Hre' (o'&k'&[= <- <-]&Hw)]. exists (D' ++ D). split; [by rewrite HD', HD, app_assoc|].
    rewrite <- Est in Hm, Hor. rewrite asked_app. destruct o as [x a ys|x y|x y|x y|x|x|x y path];
      try (destruct Hm as [E1 E2]; rewrite E1, E2 in *; destruct Hor as [[-> ->]|(k1&k2&_&?&_)]; [done|done]).
    destruct Hm as (Hdel&Hmade&Hask). split; [|split].
    - intros k1 [Hin|Hin]%elem_of_app E Hh; [|by apply (Hdel k1 Hin E)]. destruct D' as [|x' D']; [by apply elem_of_nil in Hin|].
      destruct D'; [|simpl in Hl; lia]. apply elem_of_list_singleton in Hin as <-.
      destruct (story_of wP FS cfg weqk (λ _, True) weqk_equivalence wP_ok HF t0 s' k1 Hre') as (b&Hst&Hb). rewrite HD' in Hst. simpl in Hst.
      rewrite heard_cons_eq in Hst by (by apply weqk_eq). inversion Hst; subst. assert (present s' k1) as Hpr; [|by apply Hb in Hpr].
      destruct Hh as [y Hy]. simpl in Hw. destruct Hw as (ts&l&r&ks&Hx&HM&Hts&Hmk&[Hb1 Hb2]&_). destruct k1 as [w1 ks1]. simpl in *. subst ks1.
      apply (denotes_present s' y); [done|]. rewrite <- Hy. apply Hb1; [apply Hb2; eauto|congruence].
    - by eapply exec_made.
    - destruct Hor as [[-> ->]|(k1&k2&E1&E2&E3)]; [done|]. apply weqk_eq in E3 as ->. destruct Hask as [[E4 E5]|[E4 E5]]; [|congruence].
      right. rewrite E1, E4. rewrite E5 in E2. injection E2 as <- <-. done.
  Qed.

  Lemma all_keys (k : wkey) (D : list (kind * wkey)) : (∀ d k', (d, k') ∈ D → k' = k) → D = (λ d, (d, k)) <$> heard weqk k D.
  Proof.
    induction D as [|[d k'] D IH]; intros H; [done|]. assert (k' = k) as -> by (apply (H d); left). rewrite heard_cons_eq by (by apply weqk_eq). simpl. f_equal.
    apply IH. intros d' k' Hin. apply (H d'). by right.
  Qed.
  Lemma heard_in (k : wkey) (D : list (kind * wkey)) d : d ∈ heard weqk k D ↔ (d, k) ∈ D.
  Proof.
    unfold heard. rewrite elem_of_list_fmap. split.
    - intros ([d' k']&->&[E%weqk_eq Hin]%elem_of_list_filter). simpl in *. by subst.
    - intros Hin. exists (d, k). split; [done|]. apply elem_of_list_filter. split; [by apply weqk_eq|done].
  Qed.
  Lemma asked_in (D : list (kind * wkey)) d k : (d, k) ∈ D → d ≠ Del → k ∈ asked D.
  Proof. intros Hin Hd. unfold asked. apply elem_of_list_fmap. exists (d, k). split; [done|]. by apply elem_of_list_filter. Qed.
  Lemma asked_heard (k : wkey) (l : list kind) : asked ((λ d, (d, k)) <$> l) = replicate (length (filter (λ d, d ≠ Del) l)) k.
  Proof. induction l as [|d l IH]; [done|]. unfold asked in *. rewrite fmap_cons, filter_cons, (filter_cons _ d l). cbn [fst]. case_decide; [rewrite fmap_cons; cbn [snd length replicate]; by rewrite IH|done]. Qed.

  Lemma said_new D L0 M x w : bits L0 M → bits (D ++ L0) (<[x:=Tree w []]> M) → (∀ k, (Del, k) ∈ D → k.2 = [] → ¬ held M k.1) → asked D = [(w, [])] →
    (held M w ∧ D = [(Hit, (w, []))]) ∨ (¬ held M w ∧ D = [(New, (w, []))]).
  Proof.
    intros H0 H1 Hdel Hask.
    assert (Hall : ∀ d k, (d, k) ∈ D → k = (w, [])).
    { intros d k Hin. destruct (decide (k = (w, []))) as [|Hne]; [done|]. assert (Hdk : Forall (λ d, d = Del) (heard weqk k D)).
      { apply Forall_forall. intros d' Hd'%heard_in. destruct (decide (d' = Del)) as [|Hd]; [done|]. pose proof (asked_in _ _ _ Hd' Hd) as Hin'. rewrite Hask in Hin'. by apply elem_of_list_singleton in Hin'. }
      assert (d = Del) as -> by (rewrite Forall_forall in Hdk; by apply Hdk, heard_in).
      destruct (H0 k) as (b0&Hs0&Hb0), (H1 k) as (b1&Hs1&Hb1). rewrite heard_app in Hs1.
      destruct (story_dels _ _ _ _ Hdk Hs1 Hs0) as [E|(_&->&_)]; [apply heard_in in Hin; rewrite E in Hin; by apply elem_of_nil in Hin|].
      destruct (proj1 Hb0 eq_refl) as [E1 E2]. by destruct (Hdel k Hin E1). }
    pose proof (all_keys _ _ Hall) as ED. pose proof Hask as Hask'. rewrite ED, asked_heard in Hask'.
    destruct (filter (λ d, d ≠ Del) (heard weqk (w, []) D)) as [|d [|]] eqn:Ef; [done| |done].
    destruct (H0 (w, [])) as (b0&Hs0&Hb0), (H1 (w, [])) as (b1&Hs1&Hb1). rewrite heard_app in Hs1.
    assert (b1 = true) as -> by (apply Hb1; split; [done|]; exists x; simpl; by rewrite lookup_insert).
    pose proof (story_new _ _ _ _ Hs1 Hs0 Ef) as Hn. destruct b0.
    - left. destruct (proj1 Hb0 eq_refl) as [_ Hh]. split; [done|]. rewrite ED, Hn; [done|]. right. intros Hin%heard_in. by apply (Hdel _ Hin).
    - right. split; [intros Hh; discriminate (proj2 Hb0 (conj eq_refl Hh))|]. rewrite ED, Hn; [done|by left].
  Qed.
  Lemma said_other D L0 M M' : bits L0 M → bits (D ++ L0) M' → asked D = [] → (∀ w w', held M w → ¬ held M' w → held M w' → ¬ held M' w' → w = w') →
    (D = [] ∧ ∀ w, held M w → held M' w) ∨ ∃ w, D = [(Del, (w, []))] ∧ held M w ∧ ¬ held M' w.
  Proof.
    intros H0 H1 Hask Hone.
    assert (Hd : ∀ d k, (d, k) ∈ D → d = Del).
    { intros d k Hin. destruct (decide (d = Del)) as [|Hd]; [done|]. pose proof (asked_in _ _ _ Hin Hd) as Hin'. rewrite Hask in Hin'. by apply elem_of_nil in Hin'. }
    assert (Hlost : ∀ d k, (d, k) ∈ D → k.2 = [] ∧ held M k.1 ∧ ¬ held M' k.1 ∧ heard weqk k D = [Del]).
    { intros d k Hin. destruct (H0 k) as (b0&Hs0&Hb0), (H1 k) as (b1&Hs1&Hb1). rewrite heard_app in Hs1. apply heard_in in Hin.
      assert (Hdk : Forall (λ d, d = Del) (heard weqk k D)) by (apply Forall_forall; intros d' Hd'%heard_in; by eapply Hd).
      destruct (story_dels _ _ _ _ Hdk Hs1 Hs0) as [E|(E&->&->)]; [rewrite E in Hin; by apply elem_of_nil in Hin|].
      destruct (proj1 Hb0 eq_refl) as [E1 E2]. split_and!; [done|done| |done]. intros Hh. discriminate (proj2 Hb1 (conj E1 Hh)). }
    destruct D as [|[d k] D].
    - left. split; [done|]. intros w Hw. destruct (H0 (w, [])) as (b0&Hs0&Hb0), (H1 (w, [])) as (b1&Hs1&Hb1). simpl in Hs1. pose proof (story_fun _ _ _ Hs0 Hs1) as <-.
      destruct b0; [by destruct (proj1 Hb1 eq_refl)|]. discriminate (proj2 Hb0 (conj eq_refl Hw)).
    - right. destruct (Hlost d k) as (E1&E2&E3&E4); [set_solver|]. exists k.1. split; [|done]. destruct k as [w ks]. simpl in *. subst ks.
      etrans; [apply (all_keys (w, []))|by rewrite E4]. intros d' [w' ks'] Hin. destruct (Hlost _ _ Hin) as (E1'&E2'&E3'&_). simpl in *. subst ks'.
      f_equal. by apply Hone.
  Qed.

  Definition ok (c : state * bool * prog) M (L0 : list (kind * wkey)) : Prop :=
    sim c M ∧ leafy M ∧ (∀ x, own x ∨ vars c.1.1 !! x = None) ∧ (∀ u, u ≠ t → stack c.1.1 u = []) ∧ bits L0 M ∧
    if c.1.2 then ∃ o k, c.2 = Call o k ∧ mid c.1.1 o L0 M else written FS c.1.1 = L0.
  Lemma own_keep s l s' : reachable s → allowed cfg t0 (label_tid l) → step wP VF cfg s l = Next s' → (∀ x, writes x l = true → own x) →
    (∀ x, own x ∨ vars s !! x = None) → ∀ x, own x ∨ vars s' !! x = None.
  Proof.
    intros Hre Hal Hs Hw Ho x. destruct (writes x l) eqn:E; [left; by apply Hw|]. destruct (Ho x) as [|Hn]; [by left|right].
    exact (keep_none wP VF cfg weqk (λ _, True) weqk_equivalence wP_ok HV t0 s l s' x Hre Hal Hs E Hn).
  Qed.
  Lemma plain_writes thr (o : op (A:=word)) (k : bool → prog) M c x : plain' thr (Call o k, M) c → (∀ y, is_Some (M !! y) → own y) → writes x (LStart t o) = true → own x.
  Proof.
    intros Hp Ho Hw. inversion Hp; simplify_eq; simpl in Hw; try done; try (by apply bool_decide_eq_true in Hw as ->; eauto);
      try (by apply bool_decide_eq_true in Hw as <-; eauto).
    apply orb_true_iff in Hw as [Hw|Hw]; apply bool_decide_eq_true in Hw; subst; eauto.
  Qed.
  Lemma ok_step c M L0 l c' : ok c M L0 → safe c.2 M → alone l → pstep c l = Some c' →
    ∃ out M' L1, traces own (c.2, M) out (c'.2, M') ∧ ok c' M' L1 ∧ (prod_map id fst <$> L1) = reverse out ++ (prod_map id fst <$> L0).
  Proof.
    destruct c as [[s w] p]. intros Hok Hsafe Hal Hp. pose proof Hok as (Hsim&HL&Hown&Hst&Hb&Hm). cbn [fst snd] in *.
    assert (Hsame : c' = (s, w, p) → ∃ out M' L1, traces own (p, M) out (c'.2, M') ∧ ok c' M' L1 ∧ (prod_map id fst <$> L1) = reverse out ++ (prod_map id fst <$> L0)).
    { intros ->. exists [], M, L0. split_and!; [constructor|done|done]. }
    pose proof Hsim as [Hre Hsw]. destruct l as [[u o|u c]|]; [done| |].
    - destruct Hal as [-> Hc]. cbn [Client.pstep starts] in Hp. destruct (step wP VF cfg s (LRun t c)) as [s'| |] eqn:Es; [|simplify_eq; by apply Hsame|done].
      injection Hp as <-.
      assert (Hsim' : sim (s', w, p) M) by exact (sim_env wP VF cfg weqk (λ _, True) weqk_equivalence wP_ok HV t0 fst own wmakes t s w p (LRun t c) M s' Hsim Ht eq_refl (λ _ _ _, eq_refl) Es).
      exists [], M, L0. split; [constructor|]. split; [|done]. split; [done|]. split; [done|]. cbn [fst snd]. split; [|split; [|split; [done|]]].
      + eapply own_keep; [done| |done|done|done]. exact Ht.
      + intros u Hu. rewrite <- (Hst u Hu). eapply step_other; [done|]. done.
      + destruct w.
        * destruct Hm as (o&k&->&Hmid). exists o, k. split; [done|]. by eapply mid_step.
        * destruct Hsw as [Hemp _]. simpl in Es. by rewrite Hemp in Es.
    - cbn [Client.pstep Client.pgo] in Hp. destruct p as [o|o k|x path k|x path y path' k].
      + apply Hsame. congruence.
      + destruct w.
        * destruct (stack s t) as [|i rest] eqn:Est; [|apply Hsame; congruence]. injection Hp as <-.
          destruct (sim_end wP VF cfg weqk (λ _, True) weqk_equivalence wP_ok HV t0 fst wP_keys own wmakes t s o k M Hsim Est) as (M'&Hpl&Hsim').
          destruct Hm as (o'&k'&[= <- <-]&D&HD&Hmid).
          assert (Hmi : made_it VF s o = true).
          { destruct o; try done. destruct Hmid as (_&Hmade&_). unfold made in Hmade. rewrite Est in Hmade. simpl in *. destruct Hmade as [[? ?]|[_ [h ->]]]; done. }
          rewrite Hmi in *. simpl in Hpl. pose proof (plain_leafy own _ _ _ _ _ HL Hpl) as HL'.
          assert (Hq : quiescent s) by (intros u; destruct (decide (u = t)) as [->|]; [done|by apply Hst]).
          assert (Hb' : bits (written FS s) M') by (apply rest_bits; [done|done|by destruct Hsim' as (_&_&?)|done|done]).
          assert (Hok' : ok (s, false, k true) M' (written FS s)) by (split; [done|split; [done|split; [done|split; [done|split; [done|done]]]]]).
          assert (∃ out, says own (Call o k, M) out (k true, M') ∧ prod_map id fst <$> D = reverse out) as (out&Hsay&Hout).
          2: { exists out, M', (written FS s). split; [by apply traces_once|]. split; [done|]. by rewrite HD, fmap_app, Hout. }
          rewrite HD in Hb'. rewrite Est in Hmid.
          assert (Hoth : (∀ x a ys, o ≠ ONew x a ys) → asked D = [] → ∃ out, says own (Call o k, M) out (k true, M') ∧ prod_map id fst <$> D = reverse out).
          { intros Hne Hask. destruct (said_other D L0 M M' Hb Hb' Hask) as [[-> Hkeep]|(w&->&H1&H2)]; [by eapply plain_lost| |].
            - exists []. split; [|done]. apply Sy_quiet; [intros ???? E; injection E as -> _; by eapply Hne|done|done].
            - exists [(Del, w)]. split; [|done]. by apply Sy_del. }
          destruct o as [x a ys|x y|x y|x y|x|x|x y path]; try (apply Hoth; [done|by destruct Hmid]).
          destruct Hmid as (Hdel&_&[[_ ?]|[Hask _]]); [done|].
          inversion Hpl as [x' a' ys' ts l' k0 M0 Hx HM Hts Hmk E1 E2| | | | | | | | |]; simplify_eq. destruct Hmk as [-> Hz]. destruct ts; [|done]. apply Forall2_nil_inv_r in Hts as ->.
          destruct (said_new D L0 M x a Hb Hb' Hdel Hask) as [[Hh ->]|[Hh ->]].
          -- exists [(Hit, a)]. split; [|done]. by apply Sy_hit.
          -- exists [(New, a)]. split; [|done]. by apply Sy_new.
        * destruct (Hsafe _ _ (rtc_refl _ _)) as [[? ?]|[c Hc]]; [done|].
          destruct (sim_start wP VF cfg weqk (λ _, True) weqk_equivalence wP_ok HV t0 fst own wmakes wmakes_make t Ht s o k M c Hsim Hc) as (s'&Hs'&Hsim').
          rewrite Hs' in Hp. injection Hp as <-. exists [], M, L0. split; [constructor|]. split; [|done]. split; [done|]. split; [done|]. cbn [fst snd].
          destruct Hsw as [Hemp Hag]. split; [|split; [|split; [done|]]].
          -- eapply own_keep; [done| |exact Hs'| |done]; [exact Ht|]. intros x Hx. eapply plain_writes; [exact Hc|by destruct Hag|done].
          -- intros u Hu. rewrite <- (Hst u Hu). eapply step_other; [exact Hs'|]. done.
          -- exists o, k. split; [done|]. exists []. simpl in Hs'. rewrite Hemp in Hs'.
             destruct (start_adds wP FS cfg s t o s' Hemp Hs') as [Hw Ho]. split; [by rewrite Hw|].
             destruct o as [x a ys|x y|x y|x y|x|x|x y path]; try done.
             destruct Ho as (ks&Hks&Hr). assert (ys = []) as ->.
             { inversion Hc as [x' a' ys' ts l' k0 M0 Hx HM Hts Hmk E1 E2|x' a' ys' ts l' k0 M0 _ Hx HM Hts Hmk E1 E2| | | | | | | |]; simplify_eq;
               (destruct Hmk as [-> Hz]; destruct ts; [|done]; by apply Forall2_nil_inv_r in Hts). }
             simpl in Hks. injection Hks as <-. destruct (Hr (a, []) eq_refl) as [H1 H2]. split; [intros k1 Hk1; by apply elem_of_nil in Hk1|]. split; [done|]. by left.
      + destruct w; [destruct Hm as (?&?&?&_); done|]. destruct (Hsafe _ _ (rtc_refl _ _)) as [[? ?]|[c Hc]]; [done|].
        destruct (sim_look wP VF cfg weqk (λ _, True) weqk_equivalence wP_ok HV t0 fst own wmakes t s x path k M c Hsim Hc) as (l&n&El&Hpl&Hsim').
        rewrite El in Hp. injection Hp as <-. exists [], M, L0. split; [|split; [|done]].
        * apply traces_once, Sy_quiet; [done| |done]. inversion Hpl; simplify_eq. by econstructor.
        * split; [done|split; [done|split; [done|split; [done|split; [done|done]]]]].
      + destruct w; [destruct Hm as (?&?&?&_); done|]. destruct (Hsafe _ _ (rtc_refl _ _)) as [[? ?]|[c Hc]]; [done|].
        destruct (sim_same wP VF cfg weqk (λ _, True) weqk_equivalence wP_ok HV t0 fst wP_keys own wmakes t s x path y path' k M c Hsim Hc) as (b&El&Hpl&Hsim').
        rewrite El in Hp. injection Hp as <-. exists [], M, L0. split; [|split; [|done]].
        * apply traces_once, Sy_quiet; [done|apply Hpl|done].
        * split; [done|split; [done|split; [done|split; [done|split; [done|done]]]]].
  Qed.
  Lemma traces_plain c out c' : traces own c out c' → rtc (plain' true) c c'.
  Proof.
    induction 1 as [c|c o c1 o' c2 Hs Ht1 IH]; [done|]. eapply rtc_l; [|exact IH]. destruct Hs; by eapply plain_more.
  Qed.
  Lemma ok_run ls : ∀ c M L0 c', ok c M L0 → safe c.2 M → Forall alone ls → prun c ls = Some c' →
    ∃ out M' L1, traces own (c.2, M) out (c'.2, M') ∧ ok c' M' L1 ∧ (prod_map id fst <$> L1) = reverse out ++ (prod_map id fst <$> L0).
  Proof.
    induction ls as [|l ls IH]; intros c M L0 c' Hok Hsafe Hal Hp; [injection Hp as <-; exists [], M, L0; split_and!; [constructor|done|done]|].
    apply Forall_cons in Hal as [Hl Hal]. cbn [Client.prun] in Hp. destruct (pstep c l) as [c1|] eqn:E; [|done].
    destruct (ok_step c M L0 l c1 Hok Hsafe Hl E) as (o1&M1&L1&Ht1&Hok1&E1).
    destruct (IH c1 M1 L1 c' Hok1) as (o2&M2&L2&Ht2&Hok2&E2); [|done|done|].
    { intros p' M' Hr. apply Hsafe. etrans; [by eapply traces_plain|]. done. }
    exists (o1 ++ o2), M2, L2. split; [by eapply traces_app|]. split; [done|]. by rewrite E2, E1, reverse_app, app_assoc.
  Qed.
  Lemma prun_alone cs : ∀ s s' w (p : prog), run wP VF cfg s (map (LRun t) cs) = Next s' → prun (s, w, p) ((λ c, Env (LRun t c)) <$> cs) = Some (s', w, p).
  Proof.
    induction cs as [|c cs IH]; intros s s' w p; [by intros [= ->]|]. cbn [map Core.run]. intros Hs.
    cbn [fmap list_fmap Client.prun Client.pstep starts]. destruct (step wP VF cfg s (LRun t c)) as [s1| |]; [|by apply IH|done]. by apply IH.
  Qed.
  Lemma ok_finishes (p : prog) : ∀ s M L0, ok (s, false, p) M L0 → safe p M → ∃ ls s' o, Forall alone ls ∧ prun (s, false, p) ls = Some (s', false, Ret o).
  Proof.
    induction p as [o|o k IH|x path k IH|x path y path' k IH]; intros s M L0 Hok Hsafe; [by exists [], s, o|..].
    - pose proof Hok as (Hsim&_&_&Hst&_). destruct (Hsafe _ _ (rtc_refl _ _)) as [[? ?]|[c Hc]]; [done|].
      destruct (sim_start wP VF cfg weqk (λ _, True) weqk_equivalence wP_ok HV t0 fst own wmakes wmakes_make t Ht s o k M c Hsim Hc) as (s1&Hs1&Hsim1).
      pose proof Hsim1 as [Hre1 _]. pose proof Hsim as [Hre [Hemp _]].
      destruct (finish_alone wP VF cfg weqk (λ _, True) weqk_equivalence wP_ok HV t0 s1 t) as (cs&s2&Hcs&Hrun&Hst2&_); [by apply inv_of|done| |].
      { assert (Hlk : lck cfg = true → lock s = None).
        { intros El. apply (quiescent_unlocked wP VF cfg weqk (λ _, True) HV t0); [by apply inv_of|done|]. intros u. destruct (decide (u = t)) as [->|]; [done|by apply Hst]. }
        assert (Hll : lock s1 = lock s).
        { clear -Hs1 Hemp. simpl in Hs1. rewrite Hemp in Hs1.
          assert (Hch : ∀ (s1 : state) h s2, copy_handle VF cfg s1 h = Some s2 → lock s2 = lock s1) by (unfold copy_handle; intros s' h s2 E; repeat case_match; by simplify_eq).
          assert (Hchs : ∀ hs (s1 s2 : state), copy_handles VF cfg s1 hs = Some s2 → lock s2 = lock s1).
          { induction hs as [|h hs IH]; intros s' s2 E; simpl in E; [by simplify_eq|]. destruct (copy_handle VF cfg s' h) as [s3|] eqn:E3; [|done].
            rewrite <- (Hch _ _ _ E3). exact (IH _ _ E). }
          destruct o; simpl in Hs1; repeat (case_match; try done); simplify_eq; simpl; by eauto. }
        intros El. by rewrite Hll, Hlk. }
      set (ls1 := (Go :: ((λ c, Env (LRun t c)) <$> cs) ++ [Go]) : list (clab (A:=word))).
      assert (Hal : Forall alone ls1).
      { constructor; [done|]. apply Forall_app. split; [|by constructor]. apply Forall_fmap. eapply Forall_impl; [exact Hcs|]. by intros c' Hc'. }
      assert (Hpr : prun (s, false, Call o k) ls1 = Some (s2, false, k (made_it VF s2 o))).
      { unfold ls1. cbn [Client.prun Client.pstep pgo]. rewrite Hs1, (prun_app wP VF cfg fst t). rewrite (prun_alone cs s1 s2 true (Call o k) Hrun).
        cbn [Client.prun Client.pstep pgo]. by rewrite Hst2. }
      destruct (ok_run ls1 _ _ _ _ Hok Hsafe Hal Hpr) as (out&M'&L1&Htr1&Hok'&_).
      destruct (IH _ _ _ _ Hok') as (ls2&s'&o'&Hal2&Hp2); [intros p' M1 Hr; apply Hsafe; etrans; [by eapply traces_plain|done]|].
      exists (ls1 ++ ls2), s', o'. split; [by apply Forall_app|]. by rewrite (prun_app wP VF cfg fst t), Hpr.
    - pose proof Hok as (Hsim&_). destruct (Hsafe _ _ (rtc_refl _ _)) as [[? ?]|[c Hc]]; [done|].
      destruct (sim_look wP VF cfg weqk (λ _, True) weqk_equivalence wP_ok HV t0 fst own wmakes t s x path k M c Hsim Hc) as (l&n&El&Hpl&Hsim').
      assert (Hpr : prun (s, false, Look x path k) [Go] = Some (s, false, k l n)) by (cbn [Client.prun Client.pstep pgo]; by rewrite El).
      destruct (ok_run [Go] _ _ _ _ Hok Hsafe ltac:(by repeat constructor) Hpr) as (out&M'&L1&Htr1&Hok'&_).
      destruct (IH _ _ _ _ _ Hok') as (ls2&s'&o'&Hal2&Hp2); [intros p' M1 Hr; apply Hsafe; etrans; [by eapply traces_plain|done]|].
      exists (Go :: ls2), s', o'. split; [by constructor|]. cbn [Client.prun Client.pstep pgo]. by rewrite El.
    - pose proof Hok as (Hsim&_). destruct (Hsafe _ _ (rtc_refl _ _)) as [[? ?]|[c Hc]]; [done|].
      destruct (sim_same wP VF cfg weqk (λ _, True) weqk_equivalence wP_ok HV t0 fst wP_keys own wmakes t s x path y path' k M c Hsim Hc) as (b&El&Hpl&Hsim').
      assert (Hpr : prun (s, false, Same x path y path' k) [Go] = Some (s, false, k b)) by (cbn [Client.prun Client.pstep pgo]; by rewrite El).
      destruct (ok_run [Go] _ _ _ _ Hok Hsafe ltac:(by repeat constructor) Hpr) as (out&M'&L1&Htr1&Hok'&_).
      destruct (IH _ _ _ _ Hok') as (ls2&s'&o'&Hal2&Hp2); [intros p' M1 Hr; apply Hsafe; etrans; [by eapply traces_plain|done]|].
      exists (Go :: ls2), s', o'. split; [by constructor|]. cbn [Client.prun Client.pstep pgo]. by rewrite El.
  Qed.
  Lemma ok_start s (p : prog) M : reachable s → quiescent s → agrees s M → leafy M → (∀ x, own x ∨ vars s !! x = None) → ok (s, false, p) M (written FS s).
  Proof.
    intros Hre Hq Hag HL Hown. split; [split; [done|split; [apply Hq|done]]|]. split; [done|]. split; [done|]. split; [intros u _; apply Hq|]. split; [by apply rest_bits|done].
  Qed.
  (** Without exceptions and with no other objects, a program writes what it
      would write if the values were counted: "new" when a value is made that no
      object has, "hit" when one is made that some object has, "del" when the
      last object that has it goes; copies, moves and swaps write nothing. *)
  Theorem C77_alone s (p p' : prog) M ls s' : reachable s → quiescent s → agrees s M → leafy M → (∀ x, own x ∨ vars s !! x = None) → safe p M →
    Forall alone ls → prun (s, false, p) ls = Some (s', false, p') →
    ∃ out M', traces own (p, M) out (p', M') ∧ reachable s' ∧ agrees s' M' ∧ quiescent s' ∧ (∀ x, own x ∨ vars s' !! x = None) ∧ output s' = output s ++ out.
  Proof.
    intros Hre Hq Hag HL Hown Hsafe Hal Hp.
    destruct (ok_run ls (s, false, p) M (written FS s) (s', false, p')) as (out&M'&L1&Htr1&Hok&E); [by apply ok_start|done|done|done|].
    destruct Hok as ([Hre' [Hst' Hag']]&_&Hown'&Hoth&_&HL1). simpl in *. exists out, M'. split; [done|]. split; [done|]. split; [done|]. split; [|split; [done|]].
    - intros u. destruct (decide (u = t)) as [->|]; [done|by apply Hoth].
    - unfold output. rewrite HL1, E. rewrite reverse_app, reverse_involutive. done.
  Qed.
End Solo.

(** ** The program *)
(** what is to be written: when the words are read, and when the vector goes *)
Fixpoint said_in (seen ws : list word) : list (kind * word) :=
  match ws with [] => [] | w :: ws => (if bool_decide (w ∈ seen) then Hit else New, w) :: said_in (seen ++ [w]) ws end.
Fixpoint said_out (ws : list word) : list (kind * word) :=
  match ws with [] => [] | w :: ws => (if bool_decide (w ∈ ws) then [] else [(Del, w)]) ++ said_out ws end.
Definition leaf (w : word) : tree word := Tree w [].
Section Main.
  Context (nm : nat → var) (Hnm : ∀ i j, nm i = nm j → i = j) (grows : nat → growth) (Hg : ∀ n, grows n ≠ Fails).
  Notation own := (named nm).
  Notation env := (gmap var (tree word)).
  Notation prog := (prog (A:=word) (L:=word) (O:=bool)).
  Notation have := (have nm).
  Implicit Types (M : env) (p : prog) (Q : bool → list (kind * word) → Prop).
  Definition owp p M Q : Prop := ∀ out o M', traces own (p, M) out (Ret o, M') → Q o out.
  Lemma owp_ret o M Q : Q o [] → owp (Ret o) M Q.
  Proof.
    intros HQ out o' M' Ht. inversion Ht as [|c o1 c1 o2 c2 Hs]; subst; [done|]. inversion Hs as [| | |p M0 p' M1 _ Hp]; subst. inversion Hp.
  Qed.
  Lemma owp_copy x y T k M Q : own x → M !! x = None → M !! y = Some T → owp (k true) (<[x:=T]> M) Q → owp (Call (OCopy x y) k) M Q.
  Proof.
    intros Hx HN HT HQ out o M' Ht. inversion Ht as [|c o1 c1 o2 c2 Hs Ht1]; subst. inversion Hs as [| |o' k' M1 M2 w _ Hp Hw Hn|p M1 p' M2 _ Hp]; subst.
    - inversion Hp; simplify_eq. destruct Hn, Hw as [z Hz]. exists z. rewrite lookup_insert_ne; congruence.
    - inversion Hp; simplify_eq. by eapply HQ.
  Qed.
  Lemma owp_destroy_quiet x T k M Q : M !! x = Some T → (∀ w, T = leaf w → held (delete x M) w) → owp (k true) (delete x M) Q → owp (Call (ODestroy x) k) M Q.
  Proof.
    intros HT Hh HQ out o M' Ht. inversion Ht as [|c o1 c1 o2 c2 Hs Ht1]; subst. inversion Hs as [| |o' k' M1 M2 w _ Hp Hw Hn|p M1 p' M2 _ Hp]; subst.
    - inversion Hp; simplify_eq. destruct Hn, Hw as [z Hz]. destruct (decide (z = x)) as [->|]; [apply Hh; unfold leaf; congruence|]. exists z. by rewrite lookup_delete_ne.
    - inversion Hp; simplify_eq. by eapply HQ.
  Qed.
  Lemma owp_destroy_del x w k M Q : M !! x = Some (leaf w) → ¬ held (delete x M) w → owp (k true) (delete x M) (λ o out, Q o ((Del, w) :: out)) → owp (Call (ODestroy x) k) M Q.
  Proof.
    intros HT Hh HQ out o M' Ht. inversion Ht as [|c o1 c1 o2 c2 Hs Ht1]; subst. inversion Hs as [| |o' k' M1 M2 w' _ Hp Hw Hn|p M1 p' M2 _ Hp Hk]; subst.
    - inversion Hp; simplify_eq. assert (w' = w) as ->; [|by apply (HQ _ _ M')]. destruct Hw as [z Hz]. destruct (decide (z = x)) as [->|]; [unfold leaf in HT; congruence|].
      destruct Hn. exists z. by rewrite lookup_delete_ne.
    - inversion Hp; simplify_eq. destruct Hh. apply Hk. by exists x.
  Qed.
  Lemma owp_new x w k M Q : own x → M !! x = None → (held M w → owp (k true) (<[x:=leaf w]> M) (λ o out, Q o ((Hit, w) :: out))) →
    (¬ held M w → owp (k true) (<[x:=leaf w]> M) (λ o out, Q o ((New, w) :: out))) → owp (Call (ONew x w []) k) M Q.
  Proof.
    assert (Hpl : ∀ M M', Client.plain own wmakes false (Call (ONew x w []) k, M) (k true, M') → M' = <[x:=leaf w]> M).
    { intros M1 M2 Hp. inversion Hp as [x' a' ys' ts l' k0 M0 Hx HM Hts Hmk E1 E2| | | | | | | | |]; simplify_eq. destruct Hmk as [-> Hz]. by destruct ts. }
    intros Hx HN HQ1 HQ2 out o M' Ht. inversion Ht as [|c o1 c1 o2 c2 Hs Ht1]; subst.
    inversion Hs as [x' w' k' M1 M2 Hp Hh|x' w' k' M1 M2 Hp Hh|o' k' M1 M2 w' Hne|p M1 p' M2 Hne]; subst.
    - rewrite (Hpl _ _ Hp) in Ht1. by apply (HQ2 Hh _ _ M').
    - rewrite (Hpl _ _ Hp) in Ht1. by apply (HQ1 Hh _ _ M').
    - by destruct (Hne x w []).
    - by destruct (Hne x w [] k).
  Qed.
  Lemma have_held M l n w : have M l n → held M w ↔ leaf w ∈ l.*2.
  Proof.
    intros (_&H&_). unfold held. split.
    - intros [x Hx%H]. apply elem_of_list_fmap. by exists (x, leaf w).
    - intros ([x T]&E&Hx)%elem_of_list_fmap. simpl in E. exists x. apply H. by subst T.
  Qed.
  Lemma owp_destroy_all xs : ∀ M l n p Q, have M (xs ++ l) n → (∀ T, T ∈ xs.*2 → T ∈ l.*2) → (∀ M', have M' l n → owp p M' Q) → owp (destroy_all xs.*1 p) M Q.
  Proof.
    induction xs as [|[x T] xs IH]; intros M l n p Q Hh Hin Hp; [by apply Hp|].
    apply have_drop in Hh as [HT Hh]. change (have (delete x M) (xs ++ l) n) in Hh. apply (owp_destroy_quiet x T); [done| |].
    - intros w ->. apply (proj2 (have_held _ _ _ _ Hh)). rewrite fmap_app. apply elem_of_app. right. apply Hin. left.
    - eapply IH; [done| |done]. intros U HU. apply Hin. by right.
  Qed.
  Lemma owp_copy_all xs : ∀ M l n k Q, have M l n → (∀ z, z ∈ xs → z ∈ l) →
    (∀ M' ys m, ys.*2 = xs.*2 → have M' (ys ++ l) m → owp (k ys.*1 m) M' Q) → owp (copy_all nm xs.*1 n k) M Q.
  Proof using Hnm.
    induction xs as [|[x T] xs IH]; intros M l n k Q Hh Hx Hk; [by apply (Hk M [] n)|].
    cbn. apply (owp_copy _ _ T); [by exists n|by eapply have_none|destruct Hh as (_&H&_); apply H, Hx; by left|].
    eapply (IH _ ((nm n, T) :: l) (S n)); [by eapply have_new|intros z Hz; right; apply Hx; by right|].
    intros M' ys m Hys Hh'. apply (Hk M' ((nm n, T) :: ys) m); [change (T :: ys.*2 = T :: xs.*2); by rewrite Hys|]. eapply have_perm; [|exact Hh']. by rewrite <- Permutation_middle.
  Qed.
  Lemma owp_push_back xs r T : ∀ M l n k f Q, have M (xs ++ (r, T) :: l) n →
    (∀ M' ys m, ys.*2 = xs.*2 ++ [T] → have M' (ys ++ (r, T) :: l) m → owp (k ys.*1 m) M' Q) →
    owp (push_back nm grows xs.*1 r n k f) M Q.
  Proof using Hnm Hg.
    intros M l n k f Q Hh Hk. unfold push_back. assert (Hr : M !! r = Some T) by (destruct Hh as (_&H&_); apply H, elem_of_app; right; by left).
    destruct (grows n) eqn:E; [| |by destruct (Hg n)]; (apply (owp_copy _ _ T); [by exists n|by eapply have_none|done|]).
    - pose proof (Hk (<[nm n:=T]> M) (xs ++ [(nm n, T)]) (S n)) as Hk'. rewrite !fmap_app in Hk'. apply Hk'; [done|].
      eapply have_perm; [|by eapply have_new]. rewrite <- app_assoc. apply Permutation_middle.
    - eapply (owp_copy_all xs _ ((nm n, T) :: xs ++ (r, T) :: l)); [by eapply have_new|intros z Hz; right; apply elem_of_app; by left|].
      intros M' ys m Hys Hh'. eapply (owp_destroy_all xs _ (ys ++ [(nm n, T)] ++ (r, T) :: l)).
      { eapply have_perm; [|exact Hh']. simpl. rewrite (app_assoc xs ys), (Permutation_app_comm xs ys), <- app_assoc. f_equiv.
        apply Permutation_middle. }
      { intros U HU. rewrite fmap_app, Hys. apply elem_of_app. by left. }
      intros M2 H2. pose proof (Hk M2 (ys ++ [(nm n, T)]) m) as Hk'. rewrite !fmap_app in Hk'. apply Hk'; [by rewrite Hys|]. by rewrite <- app_assoc.
  Qed.
  Lemma leaf_in (w : word) (ws : list word) : leaf w ∈ leaf <$> ws ↔ w ∈ ws.
  Proof. rewrite elem_of_list_fmap. split; [intros (v&[= ->]&?); done|intros H; by exists w]. Qed.
  Lemma owp_end xs : ∀ ws M n o Q, have M xs n → xs.*2 = leaf <$> ws → Q o (said_out ws) → owp (destroy_all xs.*1 (Ret o)) M Q.
  Proof.
    induction xs as [|[x T] xs IH]; intros [|w ws] M n o Q Hh E HQ; [by apply owp_ret|done|done|]. injection E as -> E. change (xs.*2 = leaf <$> ws) in E.
    apply have_drop in Hh as [HT Hh]. cbn [fmap list_fmap destroy_all fst]. simpl in HQ. case_bool_decide as Hw.
    - apply (owp_destroy_quiet x (leaf w)); [done| |by eapply IH]. intros w' [= <-]. apply (proj2 (have_held _ _ _ _ Hh)). rewrite E. by apply leaf_in.
    - apply (owp_destroy_del x w); [done| |by eapply IH]. intros Hn. eapply (have_held _ _ _ _ Hh) in Hn. rewrite E in Hn. by apply leaf_in in Hn.
  Qed.
  Lemma owp_collect ws : ∀ seen l M n Q, have M l n → l.*2 = leaf <$> seen → Q true (said_in seen ws ++ said_out (seen ++ ws)) →
    owp (collect nm grows ws l.*1 n (λ xs _, destroy_all xs (Ret true))) M Q.
  Proof using Hnm Hg.
    induction ws as [|w ws IH]; intros seen l M n Q Hh El HQ; simpl; [eapply owp_end; [done|done|by rewrite app_nil_r in HQ]|].
    assert (HN : M !! nm n = None) by (by eapply have_none). simpl in HQ.
    assert (Hheld : held M w ↔ w ∈ seen) by (rewrite (have_held _ _ _ _ Hh), El; apply leaf_in).
    assert (Hgo : ∀ Q', Q' true (said_in (seen ++ [w]) ws ++ said_out ((seen ++ [w]) ++ ws)) →
      owp (push_back nm grows l.*1 (nm n) (S n) (λ xs n', Call (ODestroy (nm n)) (λ _, collect nm grows ws xs n' (λ xs _, destroy_all xs (Ret true)))) (destroy_all (nm n :: l.*1) (Ret false))) (<[nm n:=leaf w]> M) Q').
    { intros Q' HQ'. eapply (owp_push_back l (nm n) (leaf w) _ []); [eapply have_perm; [|by eapply (have_new nm Hnm M l n n)]; apply Permutation_cons_append|].
      intros M' ys m Hys Hh'. assert (Hh2 : have M' ((nm n, leaf w) :: ys) m) by (eapply have_perm; [|exact Hh']; symmetry; apply Permutation_cons_append).
      apply have_drop in Hh2 as [HT Hh2]. apply (owp_destroy_quiet (nm n) (leaf w)); [done| |].
      - intros w' [= <-]. apply (proj2 (have_held _ _ _ _ Hh2)). rewrite Hys. apply elem_of_app. right. by left.
      - eapply (IH (seen ++ [w])); [done|by rewrite Hys, El, fmap_app|done]. }
    rewrite <- app_assoc in Hgo. apply owp_new; [by exists n|done| |]; intros Hw; apply Hgo.
    - rewrite bool_decide_true in HQ by (by apply Hheld). exact HQ.
    - rewrite bool_decide_false in HQ by (by rewrite <- Hheld). exact HQ.
  Qed.
  Lemma owp_main txt : owp (main nm grows txt) ∅ (λ o out, o = true ∧ out = said_in [] (split [] txt) ++ said_out (split [] txt)).
  Proof using Hnm Hg. unfold main. eapply (owp_collect _ [] [] ∅ 0); [apply have_nothing|done|done]. Qed.
End Main.

(** ** The words of a text: what is between separators *)
Definition separator (c : ascii) : Prop :=
  c ∈ [" "; "009"; "010"; "."; ","; ";"; ":"; "!"; "?"; "'"; """"; "-"]%char.
Definition a_word (w : word) : Prop := w ≠ [] ∧ Forall (λ c, ¬ separator c) w.
Inductive words : word → list word → Prop :=
| W_end sp : Forall separator sp → words sp []
| W_last sp w : Forall separator sp → a_word w → words (sp ++ w) [w]
| W_word sp w c txt ws : Forall separator sp → a_word w → separator c → words txt ws → words (sp ++ w ++ c :: txt) (w :: ws).
Lemma sep_spec c : sep c = true ↔ separator c.
Proof. unfold sep, separator. rewrite bool_decide_eq_true. done. Qed.
Lemma sep_not c : ¬ separator c → sep c = false.
Proof. intros H. destruct (sep c) eqn:E; [|done]. by apply sep_spec in E. Qed.
Lemma split_seps sp txt : Forall separator sp → split [] (sp ++ txt) = split [] txt.
Proof. induction 1 as [|c sp Hc _ IH]; [done|]. simpl. apply sep_spec in Hc as ->. done. Qed.
Lemma split_word w : ∀ cur txt, Forall (λ c, ¬ separator c) w → split cur (w ++ txt) = split (cur ++ w) txt.
Proof.
  induction w as [|c w IH]; intros cur txt Hw; [by rewrite app_nil_r|]. apply Forall_cons in Hw as [Hc Hw]. simpl. rewrite (sep_not c Hc), IH by done.
  by rewrite <- app_assoc.
Qed.
Lemma words_sep c txt ws : separator c → words txt ws → words (c :: txt) ws.
Proof.
  intros Hc H. destruct H as [sp H|sp w H Hw|sp w d txt ws H Hw Hd Hr].
  - apply W_end. by constructor.
  - apply (W_last (c :: sp)); [by constructor|done].
  - apply (W_word (c :: sp)); [by constructor|done|done|done].
Qed.
Lemma split_words txt : ∀ cur, Forall (λ c, ¬ separator c) cur → words (cur ++ txt) (split cur txt).
Proof.
  induction txt as [|c txt IH]; intros cur Hc; simpl.
  - rewrite app_nil_r. destruct cur; [by apply W_end|]. apply (W_last []); [constructor|by split].
  - destruct (sep c) eqn:E.
    + apply sep_spec in E. destruct cur as [|d cur]; [apply words_sep; [done|]; by apply (IH [])|].
      apply (W_word [] (d :: cur)); [constructor|by split|done|]. by apply (IH []).
    + replace (cur ++ c :: txt) with ((cur ++ [c]) ++ txt) by (by rewrite <- app_assoc). apply IH. apply Forall_app. split; [done|]. constructor; [|constructor].
      intros H%sep_spec. congruence.
Qed.
Theorem C77_words txt ws : words txt ws ↔ split [] txt = ws.
Proof.
  split; [|intros <-; by apply (split_words txt [])]. induction 1 as [sp H|sp w H [Hn Hw]|sp w c txt ws H [Hn Hw] Hc Hr IH].
  - rewrite <- (app_nil_r sp). by rewrite split_seps.
  - rewrite split_seps by done. rewrite <- (app_nil_r w) at 1. rewrite split_word by done. simpl. by destruct w.
  - rewrite split_seps, split_word by done. simpl. apply sep_spec in Hc as ->. rewrite IH. by destruct w.
Qed.

(** ** With flyweights *)
Section Run.
  Context (FS : factory wkey) (HF : factory_spec weqk FS) (cfg : config) (t0 t : tid) (Ht : lck cfg = false → t = t0).
  Context (nm : nat → var) (Hnm : ∀ i j, nm i = nm j → i = j) (grows : nat → growth).
  Notation VF := (verbose FS).
  Notation HV := (verbose_spec weqk weqk_equivalence FS HF).
  Notation state := (state (R:=wkey) (K:=wkey) (A:=word) VF).
  Notation own := (named nm).
  Notation reachable := (reachable wP VF cfg t0).
  Notation prun := (prun wP VF cfg fst t).
  Implicit Types s : state.
  Lemma wp_collect thr ws : ∀ l M n, have nm M l n →
    wp (O:=bool) own wmakes thr (collect nm grows ws l.*1 n (λ xs _, destroy_all xs (Ret true))) M (λ o M', M' = ∅ ∧ (o = false → may_throw grows thr)).
  Proof using Hnm.
    assert (Hend : ∀ l M n o, have nm M l n → (o = false → may_throw grows thr) →
      wp (O:=bool) own wmakes thr (destroy_all l.*1 (Ret o)) M (λ o M', M' = ∅ ∧ (o = false → may_throw grows thr))).
    { intros l M n o Hh Ho. apply (wp_destroy_all nm _ _ l _ [] n); [by rewrite app_nil_r|]. intros M' H'. split; [by eapply have_empty|done]. }
    induction ws as [|w ws IH]; intros l M n Hh; simpl; [by eapply Hend|].
    split; [by exists n|]. split; [by eapply have_none|]. exists [], w. split; [constructor|]. split; [done|].
    pose proof (have_new nm Hnm M l n n (leaf w) Hh (le_n n)) as H1. split.
    - eapply (wp_push_back nm Hnm grows wmakes thr l (nm n) (leaf w) _ []); [eapply have_perm; [|exact H1]; apply Permutation_cons_append| |].
      + intros M' ys m Hys Hh'. assert (Hh2 : have nm M' ((nm n, leaf w) :: ys) m) by (eapply have_perm; [|exact Hh']; symmetry; apply Permutation_cons_append).
        apply have_drop in Hh2 as [HT Hh2]. exists (leaf w). split; [done|]. by apply IH.
      + intros Hm. apply (Hend ((nm n, leaf w) :: l) _ (S n)); [done|done].
    - intros Hthr. eapply Hend; [done|]. intros _. by left.
  Qed.
  Lemma wp_main thr txt : wp (O:=bool) own wmakes thr (main nm grows txt) ∅ (λ o M', M' = ∅ ∧ (o = false → may_throw grows thr)).
  Proof using Hnm. apply (wp_collect thr _ [] ∅ 0). apply have_nothing. Qed.
  Definition unused s : Prop := ∀ i, vars s !! nm i = None.
  Lemma unused_agrees s : unused s ↔ agrees wP VF fst own s ∅.
  Proof.
    split.
    - intros E. split; [intros x [i ->]; rewrite lookup_empty; apply E|intros x [? Hx]; by rewrite lookup_empty in Hx].
    - intros [E _] i. specialize (E (nm i) (ex_intro _ i eq_refl)). by rewrite lookup_empty in E.
  Qed.
  (** whatever other threads do and whatever throws, the program leaves nothing *)
  Theorem C77_main s txt ls : reachable s → stack s t = [] → unused s → Forall (foreign own t) ls → Forall (on_time cfg t0) ls →
    ∃ s' w p, prun (s, false, main nm grows txt) ls = Some (s', w, p) ∧ reachable s' ∧
      ∀ o, p = Ret o → w = false ∧ stack s' t = [] ∧ unused s'.
  Proof using Ht HF Hnm.
    intros Hre Hst Hun Hf Hon. pose proof (wp_main true txt) as Hw.
    destruct (C64_transparent wP VF cfg weqk (λ _, True) weqk_equivalence wP_ok HV t0 fst wP_keys own wmakes wmakes_make t Ht s (main nm grows txt) ∅ ls)
      as (s'&w&p&M&Hp&Hre'&Hr&Hw'); [done|done|by apply unused_agrees|by eapply (wp_safe _ _ _ _ _ wmakes_fun)|done|done|].
    exists s', w, p. split; [done|]. split; [done|]. intros o ->. destruct w; [by destruct Hw' as (?&?&?)|]. destruct Hw' as [Hst' Hag].
    pose proof (wp_steps own wmakes true wmakes_fun _ _ _ _ _ Hw Hr) as [-> _]. split; [done|]. split; [done|]. by apply unused_agrees.
  Qed.
  (** the program alone writes, for each word of the text, "new" or, if it has
      come before, "hit", and then "del" for each word where it comes last *)
  Theorem C77_writes s txt ws : trk cfg = true → (∀ n, grows n ≠ Fails) → reachable s → quiescent s → vars s = ∅ → words txt ws →
    (∃ ls s' o, Forall (alone t) ls ∧ prun (s, false, main nm grows txt) ls = Some (s', false, Ret o)) ∧
    ∀ ls s' o, Forall (alone t) ls → prun (s, false, main nm grows txt) ls = Some (s', false, Ret o) →
      o = true ∧ output FS s' = output FS s ++ said_in [] ws ++ said_out ws ∧ vars s' = ∅ ∧ heap s' = ∅.
  Proof using Ht HF Hnm.
    intros Htr Hg Hre Hq Hv Hws%C77_words. subst ws.
    assert (Hag : agrees wP VF fst own s ∅) by (apply unused_agrees; intros i; by rewrite Hv, lookup_empty).
    assert (HL : leafy ∅) by (intros x T HT; by rewrite lookup_empty in HT).
    assert (Hown : ∀ x, own x ∨ vars s !! x = None) by (intros x; right; by rewrite Hv, lookup_empty).
    assert (Hsafe : safe own wmakes (main nm grows txt) ∅) by (by eapply (wp_safe _ _ _ _ _ wmakes_fun), wp_main). split.
    - apply (ok_finishes FS HF cfg t0 own t Ht Htr _ s ∅ (written FS s)); [|done]. by apply ok_start.
    - intros ls s' o Hal Hp. destruct (C77_alone FS HF cfg t0 own t Ht Htr s _ _ ∅ ls s' Hre Hq Hag HL Hown Hsafe Hal Hp) as (out&M'&Htr1&Hre'&Hag'&Hq'&Hown'&Ho).
      destruct (owp_main nm Hnm grows Hg txt _ _ _ Htr1) as [-> ->]. split; [done|]. split; [done|].
      pose proof (wp_steps own wmakes true wmakes_fun _ _ _ _ _ (wp_main true txt) (traces_plain _ _ _ _ Htr1)) as [-> _]. apply unused_agrees in Hag'.
      assert (Hv' : vars s' = ∅) by (apply map_empty; intros x; destruct (Hown' x) as [[i ->]|]; [apply Hag'|done]). split; [done|].
      by eapply (empty_at_end wP VF cfg weqk (λ _, True) weqk_equivalence wP_ok HV t0).
  Qed.
End Run.

(** ** Examples: the text of the program (in part), hashed_factory below *)
Import Strings.String.
Definition text (s : string) : word := list_ascii_of_string s.
Definition song : word := text "I celebrate myself, and sing myself, I, now thirty-seven!".
Example C77_song : words song (text <$> ["I"; "celebrate"; "myself"; "and"; "sing"; "myself"; "I"; "now"; "thirty"; "seven"]%string).
Proof. apply C77_words. vm_compute. reflexivity. Qed.
Definition vhash (k : wkey) : nat := List.length k.1.
Definition vFS : factory wkey := hashed_factory vhash weqk 1 igrow.
Definition vHF : factory_spec weqk vFS.
Proof.
  apply hashed_factory_spec; [apply weqk_equivalence|]. intros k l [H1%bool_decide_eq_true H2%bool_decide_eq_true]%andb_true_iff.
  unfold vhash. by rewrite H1.
Defined.
Definition even (n : nat) : var := 2 * n.
Definition growth3 (n : nat) : growth := if n mod 3 =? 0 then Moves else Fits.
Definition rounds (n i : nat) (b : bool) : list (clab (A:=word)) :=
  List.concat ((λ j, [Go; Env (LRun 1 (Choice (100 + i + j) b))]) <$> seq 0 n).
Definition at_end (c : option (state (R:=wkey) (K:=wkey) (A:=word) (verbose vFS) * bool * prog (A:=word) (L:=word) (O:=bool))) : option (bool * list (kind * word)) :=
  match c with Some (s, false, Ret o) => Some (o, output vFS s) | _ => None end.
Example C77_at_work :
  vars (init (R:=wkey) (K:=wkey) (A:=word) (verbose vFS)) = ∅ ∧ Forall (alone 1) (rounds 400 0 false) ∧
  at_end (prun wP (verbose vFS) rc fst 1 (init (verbose vFS), false, main even growth3 song) (rounds 400 0 false)) =
    Some (true, [(New, text "I"); (New, text "celebrate"); (New, text "myself"); (New, text "and"); (New, text "sing"); (Hit, text "myself"); (Hit, text "I");
                 (New, text "now"); (New, text "thirty"); (New, text "seven");
                 (Del, text "celebrate"); (Del, text "and"); (Del, text "sing"); (Del, text "myself"); (Del, text "I"); (Del, text "now");
                 (Del, text "thirty"); (Del, text "seven")]).
Proof.
  split; [done|]. split; [apply Forall_concat, Forall_fmap, Forall_forall; intros j _; repeat constructor|]. vm_compute. reflexivity.
Qed.
(** an exception: what was inserted is erased all the same *)
Example C77_exception :
  at_end (prun wP (verbose vFS) rc fst 1 (init (verbose vFS), false, main even growth3 song) (rounds 20 0 false ++ rounds 80 20 true)) =
    Some (false, [(New, text "I"); (New, text "celebrate"); (Del, text "I"); (Del, text "celebrate")]).
Proof. vm_compute. reflexivity. Qed.
(** two threads: the story of one key *)
Definition both : list (label (A:=word)) :=
  [LStart 1 (ONew 1 (text "x") []); LStart 2 (ONew 2 (text "x") [])] ++
  List.concat ((λ j, [LRun 1 (Choice (100 + 2 * j) false); LRun 2 (Choice (101 + 2 * j) false)]) <$> seq 0 12) ++
  [LStart 2 (ODestroy 2)] ++ (LRun 2 <$> replicate 5 (Choice 0 false)) ++ [LStart 1 (ODestroy 1)] ++ (LRun 1 <$> replicate 5 (Choice 0 false)) ++
  [LStart 2 (ONew 2 (text "x") [])] ++ (LRun 2 <$> replicate 9 (Choice 77 false)).
Example C77_two :
  match run wP (verbose vFS) rc (init (verbose vFS)) both with
  | Next s => heard weqk (text "x", []) (written vFS s) = [New; Del; Hit; New] ∧ size (heap s) = 1
  | _ => False
  end.
Proof. vm_compute. split; reflexivity. Qed.

Print Assumptions C77_story.
Print Assumptions C77_balance.
Print Assumptions C77_alone.
Print Assumptions C77_words.
Print Assumptions C77_main.
Print Assumptions C77_writes.
