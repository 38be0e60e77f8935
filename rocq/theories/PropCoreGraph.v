(** C60 in terms of the graph of [CoreHbGraph.v], i.e. of happens-before as the
    C++ standard defines it. *)
From Verif Require Import PropCoreHb Instances.
From Verif Require Import CoreHbWf CoreHbGraphRun.

Lemma lookup_snoc_Some {X} (l : list X) x i y : (l ++ [x]) !! i = Some y ↔ (i < length l ∧ l !! i = Some y) ∨ (i = length l ∧ x = y).
Proof.
  split.
  - intros [H|[Hl H]]%lookup_app_Some; [left; split; [by eapply lookup_lt_Some|done]|right].
    apply list_lookup_singleton_Some in H as [Hi ->]. split; [lia|done].
  - intros [[_ H]|[-> ->]]; [by apply lookup_app_l_Some|]. by rewrite lookup_app_r, Nat.sub_diag by lia.
Qed.

(** ** The mutex: who has locked it is in the log *)
Section Mutex.
  Context {K A R V : Type}.
  Context (P : policy K A R V) (FS : factory K) (cfg : config).
  Context (inc_sync dec_rel dec_acq : bool).
  Notation state := (state (R:=R) (K:=K) (A:=A) FS).
  Notation instr := (instr (K:=K) (A:=A) (R:=R)).
  Notation hstep := (hstep P FS cfg inc_sync dec_rel dec_acq).
  Notation hrun := (hrun P FS cfg inc_sync dec_rel dec_acq).
  Notation g_exec := (g_exec P FS cfg inc_sync dec_rel dec_acq).
  Notation g_step := (g_step P FS cfg inc_sync dec_rel dec_acq).
  Notation g_run := (g_run P FS cfg inc_sync dec_rel dec_acq).

  Definition frees (lg : glog) (t : tid) (i j : nat) : Prop := ∃ k, i < k < j ∧ lg !! k = Some (t, XUnlock).
  Record M (lg : glog) (s : state) : Prop := {
    m_own : ∀ i t, lg !! i = Some (t, XLock) → (∃ n, lock s = Some (t, S n)) ∨ frees lg t i (length lg);
    m_ex : ∀ i j t u, i < j → lg !! i = Some (t, XLock) → lg !! j = Some (u, XLock) → t ≠ u → frees lg t i j;
    m_lck : lck cfg = false → lock s = None;
  }.
  (** nothing about the mutex *)
  Lemma M_quiet' lg s s' t l : M lg s → XLock ∉ l → (∀ u, (∃ n, lock s = Some (u, S n)) → ∃ n, lock s' = Some (u, S n)) →
    (lck cfg = false → lock s' = None) → M (lg ++ (pair t <$> l)) s'.
  Proof.
    intros [M1 M2 M3] Hl Hs Hs'.
    assert (Hin : ∀ i u, (lg ++ (pair t <$> l)) !! i = Some (u, XLock) → lg !! i = Some (u, XLock)).
    { intros i u [H|[_ H]]%lookup_app_Some; [done|]. apply elem_of_list_lookup_2, elem_of_list_fmap in H as (a&[= -> <-]&Ha). done. }
    assert (Hf : ∀ u i j, j ≤ length lg → frees lg u i j → frees (lg ++ (pair t <$> l)) u i j).
    { intros u i j Hj (k&Hk&H). exists k. split; [done|]. by apply look_ext. }
    split.
    - intros i u Hi%Hin. destruct (M1 i u Hi) as [|(k&Hk&H)]; [left; auto|]. right. exists k. rewrite app_length. split; [lia|by apply look_ext].
    - intros i j u v Hij Hi%Hin Hj%Hin Hne. apply Hf; [apply lookup_lt_Some in Hj; lia|]. by eapply M2.
    - done.
  Qed.
  Lemma M_quiet lg s s' t l : M lg s → XLock ∉ l → lock s' = lock s → M (lg ++ (pair t <$> l)) s'.
  Proof. intros HM Hl Hs. apply M_quiet' with s; [done|done| |]; rewrite Hs; [done|apply HM]. Qed.
  Lemma M_same lg s s' : M lg s → lock s' = lock s → M lg s'.
  Proof. intros [M1 M2 M3] Hs. split; [|done|]; by rewrite Hs. Qed.
  Lemma M_lock lg s s' t : M lg s → (lock s = None ∨ ∃ n, lock s = Some (t, n)) → (∃ n, lock s' = Some (t, S n)) → lck cfg = true → M (lg ++ [(t, XLock)]) s'.
  Proof.
    intros [M1 M2 M3] Hs Hs' Hlck.
    assert (Hold : ∀ i u, lg !! i = Some (u, XLock) → u ≠ t → frees lg u i (length lg)).
    { intros i u Hi Hu. destruct (M1 i u Hi) as [[n Hn]|]; [|done]. destruct Hs as [Hs|[m Hs]]; rewrite Hs in Hn; congruence. }
    split.
    - intros i u Hi. destruct (decide (u = t)) as [->|Hu]; [by left|]. apply lookup_snoc_Some in Hi as [[_ Hi]|[_ [= ->]]]; [|done].
      right. destruct (Hold i u Hi Hu) as (k&Hk&H). exists k. rewrite app_length. split; [lia|by apply look_ext].
    - intros i j u v Hij Hi Hj Hne. apply lookup_snoc_Some in Hi as [[Hlt Hi]|[-> [= ->]]].
      + apply lookup_snoc_Some in Hj as [[_ Hj]|[-> [= ->]]].
        * destruct (M2 i j u v Hij Hi Hj Hne) as (k&Hk&H). exists k. split; [done|by apply look_ext].
        * destruct (Hold i u Hi Hne) as (k&Hk&H). exists k. split; [done|by apply look_ext].
      + apply lookup_lt_Some in Hj. rewrite app_length in Hj. simpl in Hj. lia.
    - by rewrite Hlck.
  Qed.
  Lemma M_unlock lg s s' t n : M lg s → lock s = Some (t, n) → M (lg ++ [(t, XUnlock)]) s'.
  Proof.
    intros [M1 M2 M3] Hs. assert (Hlck : lck cfg = true) by (destruct (lck cfg); [done|]; by rewrite M3 in Hs).
    assert (Hin : ∀ i u, (lg ++ [(t, XUnlock)]) !! i = Some (u, XLock) → lg !! i = Some (u, XLock)).
    { intros i u [[_ H]|[_ H]]%lookup_snoc_Some; [done|by simplify_eq]. }
    split.
    - intros i u Hi%Hin. right. destruct (M1 i u Hi) as [[m Hm]|(k&Hk&H)].
      + rewrite Hs in Hm. simplify_eq. exists (length lg). rewrite app_length. apply lookup_lt_Some in Hi. simpl.
        split; [lia|]. by rewrite lookup_app_r, Nat.sub_diag by lia.
      + exists k. rewrite app_length. split; [lia|by apply look_ext].
    - intros i j u v Hij Hi%Hin Hj%Hin Hne. destruct (M2 i j u v Hij Hi Hj Hne) as (k&Hk&H). exists k. split; [done|by apply look_ext].
    - by rewrite Hlck.
  Qed.

  Lemma acquire_M lg s s' t : acquire FS cfg s t = Some s' → M lg s → M (lg ++ (pair t <$> (if lck cfg then [XLock] else []))) s'.
  Proof.
    unfold acquire. destruct (lck cfg) eqn:Hlck; [|intros [= <-] HM; by apply M_quiet with s; [done|apply not_elem_of_nil|done]].
    intros H HM. apply M_lock with s; [done|..|done].
    - destruct (lock s) as [[u n]|]; [|by left]. case_decide; simplify_eq. eauto.
    - destruct (lock s) as [[u n]|]; [case_decide; [|done]|]; simplify_eq; simpl; eauto.
  Qed.
  Implicit Types (s : state) (i : instr) (o : op (A:=A)).
  Lemma copy_lock s hs (s' : state) : copy_handles FS cfg s hs = Some s' → lock s' = lock s.
  Proof.
    revert s. induction hs as [|h hs IH]; intros s; simpl; [by intros [= <-]|]. unfold copy_handle. destruct (trk cfg).
    - destruct (entry s h) as [n|]; [|done]. intros H. by apply IH in H.
    - apply IH.
  Qed.
  Lemma exec_M lg c s t i rest ch s' : exec P FS cfg s t i rest ch = Next s' → M lg s → M (lg ++ (pair t <$> g_exec s t i ch c)) s'.
  Proof.
    intros He HM. destruct i as [x p r|x p r|x h p ks k|x h ks k|x h ks k| |h|h|h|h|x h k|x]; cbn [CoreHbGraph.g_exec]; simpl in He.
    - destruct (acquire FS cfg s t) as [s1|] eqn:Ea; [|done]. simplify_eq. apply M_same with s1; [by apply acquire_M with s|done].
    - apply M_quiet with s; [done|..].
      + destruct (c_throw ch); [set_solver|]. destruct (f_find FS (cont s) (kview P s) (p_key P r)); set_solver.
      + revert He. repeat case_match; intros; simplify_eq/=; done.
    - apply M_quiet with s; [done|..].
      + destruct (entry s h); set_solver.
      + revert He. repeat case_match; intros; simplify_eq/=; done.
    - apply M_quiet with s; [done|destruct (trk cfg); set_solver|]. revert He. repeat case_match; intros; simplify_eq/=; done.
    - apply M_quiet with s; [done|set_solver|]. revert He. repeat case_match; intros; simplify_eq/=; done.
    - unfold unlock in He. destruct (lck cfg) eqn:Hlck.
      + destruct (lock s) as [[u [|n]]|] eqn:El; [done| |done]. case_decide; [|done]. subst u. simplify_eq. destruct n as [|n]; [by eapply M_unlock|].
        eapply M_quiet'; [done|apply not_elem_of_nil| |by rewrite Hlck]. intros u [m Hm]. rewrite El in Hm. simplify_eq. simpl. eauto.
      + rewrite (m_lck _ _ HM Hlck). simplify_eq. by apply M_quiet with s; [done|apply not_elem_of_nil|].
    - apply M_quiet with s; [done|destruct (trk cfg); set_solver|]. revert He. repeat case_match; intros; simplify_eq/=; done.
    - destruct (acquire FS cfg s t) as [s1|] eqn:Ea; [|done]. simplify_eq. apply M_same with s1; [by apply acquire_M with s|done].
    - apply M_quiet with s; [done|..].
      + destruct (entry s h); [case_decide|]; set_solver.
      + revert He. repeat case_match; intros; simplify_eq/=; done.
    - apply M_quiet with s; [done|set_solver|]. revert He. repeat case_match; intros; simplify_eq/=; done.
    - apply M_quiet with s; [done|set_solver|]. by simplify_eq.
    - apply M_quiet with s; [done|set_solver|]. by simplify_eq.
  Qed.
  Lemma start_lock s t o (s' : state) : start P FS cfg s t o = Next s' → lock s' = lock s.
  Proof.
    intros He. destruct o as [x p ys|x y|x y|x y|x|x|x y path]; simpl in He.
    - destruct (vars s !! x); [done|]. destruct (mapM (live s) ys) as [ks|]; [|done]. destruct (copy_handles FS cfg s ks) as [s1|] eqn:Ec; [|done].
      apply copy_lock in Ec. destruct (p_make P p ks); by simplify_eq.
    - destruct (vars s !! x); [done|]. destruct (live s y) as [h|]; [|done]. unfold copy_handle in He. repeat case_match; by simplify_eq.
    - destruct (live s x); [|done]. destruct (live s y) as [h|]; [|done]. unfold copy_handle in He. repeat case_match; by simplify_eq.
    - repeat case_match; by simplify_eq.
    - repeat case_match; by simplify_eq.
    - repeat case_match; by simplify_eq.
    - destruct (vars s !! x); [done|]. destruct (live s y) as [h0|]; [|done]. destruct (inner P FS s h0 path) as [[h|]|]; [|done..].
      destruct (entry s h); [|done]. unfold copy_handle in He. repeat case_match; by simplify_eq.
  Qed.
  Lemma g_copy_quiet s y n c : XLock ∉ g_copy FS cfg inc_sync s y n c.
  Proof. unfold g_copy. destruct (live s y), (trk cfg); set_solver. Qed.
  Lemma g_copies_quiet s ys n c : XLock ∉ g_copies FS cfg inc_sync s ys n c.
  Proof.
    revert n. induction ys as [|y ys IH]; intros n; cbn [g_copies]; [apply not_elem_of_nil|]. rewrite elem_of_app. intros [H|H]; [by eapply g_copy_quiet|by eapply IH].
  Qed.
  Lemma g_inner_quiet s x h path n c : XLock ∉ g_inner P FS cfg inc_sync s x h path n c.
  Proof.
    revert h n. induction path as [|j path IH]; intros h n; cbn [g_inner]; [destruct (trk cfg); set_solver|]. rewrite elem_of_app. intros [H|H]; [set_solver|].
    destruct (entry s h) as [m|]; [|set_solver]. destruct (p_kids P (n_rep m) !! j); [|set_solver]. by eapply IH.
  Qed.
  Lemma g_start_quiet s t o c : XLock ∉ g_start P FS cfg inc_sync s t o c.
  Proof.
    destruct o as [x p ys|x y|x y|x y|x|x|x y path]; cbn [g_start].
    - apply g_copies_quiet.
    - rewrite elem_of_app. intros [H|H]; [by eapply g_copy_quiet|set_solver].
    - rewrite !elem_of_app. intros [H|[H|H]]; [set_solver|by eapply g_copy_quiet|set_solver].
    - set_solver.
    - set_solver.
    - destruct (live s x); set_solver.
    - destruct (live s y); [|set_solver]. rewrite !elem_of_app. intros [H|[H|H]]; [set_solver|by eapply g_inner_quiet|set_solver].
  Qed.
  Lemma g_walk_quiet s x h path n : XLock ∉ g_walk P FS s x h path n.
  Proof.
    revert h n. induction path as [|j path IH]; intros h n; cbn [g_walk]; [set_solver|]. rewrite elem_of_app. intros [H|H]; [set_solver|].
    destruct (entry s h) as [m|]; [|set_solver]. destruct (p_kids P (n_rep m) !! j); [|set_solver]. by eapply IH.
  Qed.
  Lemma step_M lg sc l sc' : M lg sc.1 → hstep sc l = Some sc' → M (lg ++ g_step sc l) sc'.1.
  Proof.
    destruct sc as [s c]. cbn [fst]. intros HM. destruct l as [l|t u|t x path]; cbn [CoreHb.hstep CoreHbGraph.g_step].
    - destruct (step P FS cfg s l) as [s'| |] eqn:El; intros [= <-]; cbn [fst]; [|by rewrite app_nil_r]. destruct l as [t o|t ch]; cbn [label_tid]; simpl in El.
      + destruct (stack s t); [|done]. apply start_lock in El. apply M_quiet with s; [done|apply g_start_quiet|done].
      + destruct (stack s t) as [|i rest]; [done|by eapply exec_M].
    - intros [= <-]. apply (M_quiet lg s s u [XHear t]); [done|set_solver|done].
    - destruct (stack s t); [|intros [= <-]; by rewrite app_nil_r]. destruct (live s x) as [h|]; intros [= <-]; [|by rewrite app_nil_r].
      apply M_quiet with s; [done| |done]. rewrite elem_of_cons. intros [H|H]; [done|by eapply g_walk_quiet].
  Qed.
  Lemma run_M ls : ∀ lg sc sc', M lg sc.1 → hrun sc ls = Some sc' → M (lg ++ g_run sc ls) sc'.1.
  Proof.
    induction ls as [|l ls IH]; intros lg sc sc' HM; cbn [CoreHb.hrun CoreHbGraph.g_run]; [intros [= <-]; by rewrite app_nil_r|].
    destruct (hstep sc l) as [sc1|] eqn:E1; [|done]. intros H. rewrite app_assoc. eapply IH; [by eapply step_M|done].
  Qed.
  Lemma M_init : M [] (init FS).
  Proof. by split. Qed.
End Mutex.

Section C60.
  Context {K A R V : Type}.
  Context (P : policy K A R V) (FS : factory K) (cfg : config) (inc_sync dec_rel dec_acq : bool).
  Notation hrun0 ls := (hrun P FS cfg inc_sync dec_rel dec_acq (init FS, hinit) ls).
  Notation log_of ls := (g_run P FS cfg inc_sync dec_rel dec_acq (init FS, hinit) ls).

  (** every access is in the log, once and by its thread; the graph has no cycles *)
  Theorem C60_logged ls sc a : hrun0 ls = Some sc → a ∈ tr sc.2 →
    (∃ i x, log_of ls !! i = Some (a_tid a, x) ∧ act_ev x = Some (a_ev a)) ∧
    (∀ i j, at_ev (log_of ls) i (a_ev a) → at_ev (log_of ls) j (a_ev a) → i = j) ∧
    (∀ i, ¬ tc (edge (log_of ls)) i i).
  Proof.
    intros H Ha. pose proof (run_G P FS cfg inc_sync dec_rel dec_acq ls [] (init FS, hinit) sc G_init H) as HG. simpl in HG. split_and!.
    - by apply (g_tr _ _ HG).
    - intros i j. apply (g_one _ _ HG).
    - intros i Hi%tc_lt. lia.
  Qed.

  (** what [CoreHb.v] says happens before does so in the graph *)
  Theorem C60_graph ls sc e e' : hrun0 ls = Some sc → before sc.2 e e' →
    ∃ i j, at_ev (log_of ls) i e ∧ at_ev (log_of ls) j e' ∧ tc (edge (log_of ls)) i j.
  Proof.
    intros H (E&HE&He). pose proof (run_G P FS cfg inc_sync dec_rel dec_acq ls [] (init FS, hinit) sc G_init H) as HG. by apply (g_past _ _ HG e' E e).
  Qed.

  (** The mutex excludes: between two threads locking it, the first frees it.
      So edges from freeing to later locking are those of the standard. *)
  Theorem C60_mutex ls sc i j t u : hrun0 ls = Some sc → i < j → log_of ls !! i = Some (t, XLock) → log_of ls !! j = Some (u, XLock) → t ≠ u →
    ∃ k, i < k < j ∧ log_of ls !! k = Some (t, XUnlock).
  Proof.
    intros H Hij Hi Hj Hne. pose proof (run_M P FS cfg inc_sync dec_rel dec_acq ls [] (init FS, hinit) sc (M_init FS cfg) H) as HM. by apply (m_ex _ _ _ _ HM i j t u).
  Qed.
End C60.

Section NoRace.
  Context {K A R V : Type}.
  Context (P : policy K A R V) (FS : factory K) (cfg : config) (inc_sync : bool).
  Context (eqv : K → K → bool) (good : R → Prop).
  Context (Heq : equivalence eqv) (HP : policy_ok eqv good P) (HF : factory_spec eqv FS).
  Context (t0 : tid).
  Notation log_of ls := (g_run P FS cfg inc_sync true true (init FS, hinit) ls).

  (** no data races, in terms of the graph *)
  Theorem C60_no_race_graph ls sc a b i j : hsched_ok cfg t0 ls → hrun P FS cfg inc_sync true true (init FS, hinit) ls = Some sc →
    a ∈ tr sc.2 → b ∈ tr sc.2 → conflict a b → at_ev (log_of ls) i (a_ev a) → at_ev (log_of ls) j (a_ev b) →
    i = j ∨ tc (edge (log_of ls)) i j ∨ tc (edge (log_of ls)) j i.
  Proof.
    intros Hls H Ha Hb Hc Hi Hj. destruct (C60_no_race P FS cfg inc_sync eqv good Heq HP HF t0 ls Hls) as (sc'&H'&Hr).
    rewrite H in H'. injection H' as <-.
    destruct (C60_logged P FS cfg inc_sync true true ls sc a H Ha) as (_&Ua&_). destruct (C60_logged P FS cfg inc_sync true true ls sc b H Hb) as (_&Ub&_).
    destruct (decide (a_ev a = a_ev b)) as [He|Hne]; [left; apply Ua; [done|by rewrite He]|right].
    destruct (Hr a b Ha Hb Hc Hne) as [Hx|Hx]; apply (C60_graph P FS cfg inc_sync true true ls sc _ _ H) in Hx as (k&l&Hk&Hl&Hkl).
    - left. by rewrite (Ua i k Hi Hk), (Ub j l Hj Hl).
    - right. by rewrite (Ua i l Hi Hl), (Ub j k Hj Hk).
  Qed.
End NoRace.

(** ** Computing with the graph *)
Definition edgeb (lg : glog) (i j : nat) : bool :=
  match lg !! i, lg !! j with
  | Some (t, a), Some (u, b) =>
      (t =? u) ||
      match a, b with
      | XUnlock, XLock => true
      | XRmw _ n _ true, XRmw _ n' true _ => n =? n'
      | XGot x, XBegin y | XGot x, XEnd y | XDone x, XEnd y =>
          (x =? y) && forallb (λ k, match lg !! k with Some (_, XGot z) => negb (z =? x) | _ => true end) (seq (S i) (j - S i))
      | _, XHear v => v =? t
      | _, _ => false
      end
  | _, _ => false
  end.
Lemma stillb lg x i j : still lg x i j → forallb (λ k, match lg !! k with Some (_, XGot z) => negb (z =? x) | _ => true end) (seq (S i) (j - S i)) = true.
Proof.
  intros Hs. apply forallb_forall. intros k [Hk1 Hk2]%in_seq. destruct (lg !! k) as [[t []]|] eqn:E; try done.
  apply negb_true_iff, Nat.eqb_neq. intros ->. apply (Hs k); [lia|]. by exists t.
Qed.
Lemma edgeb_complete lg i j : edge lg i j → edgeb lg i j = true.
Proof.
  intros [t a b Hlt Ha Hb|Hlt [t Ha] [u Hb]|e e' n q r Hlt [t Ha] [u Hb]|x Hlt [t Ha] [u Hb] Hs|x Hlt [[t Ha]|[t Ha]] [u Hb] Hs|t u a Hlt Ha Hb];
    unfold edgeb; rewrite Ha, Hb; rewrite ?stillb, ?Nat.eqb_refl by done; simpl; try done; try (by rewrite orb_true_r).
  destruct a as [|? ? ? []| | | | | | |]; by rewrite ?orb_true_r.
Qed.
(** what happens before [j], [j] included: positions are looked at downwards *)
Definition ancestors (lg : glog) (j : nat) : list nat :=
  foldl (λ S k, if existsb (edgeb lg k) S then k :: S else S) [j] (reverse (seq 0 j)).
Lemma ancestors_complete lg j i : tc (edge lg) i j → i ∈ ancestors lg j.
Proof.
  intros H. pose proof (tc_lt _ _ _ H) as Hlt.
  assert (Gm : ∀ n S, n ≤ j → (∀ i, rtc (edge lg) i j → n ≤ i → i ∈ S) →
    ∀ i, rtc (edge lg) i j → i ∈ foldl (λ S k, if existsb (edgeb lg k) S then k :: S else S) S (reverse (seq 0 n))).
  { clear i H Hlt. induction n as [|n IH]; intros S Hn HS i Hi; [apply HS; [done|lia]|].
    rewrite seq_S, reverse_app. simpl. apply IH; [lia| |done]. intros k Hk Hkn. destruct (decide (n < k)) as [Hlt|Hge].
    - assert (k ∈ S) by (apply HS; [done|lia]). destruct (existsb _ _); [by right|done].
    - assert (k = n) as -> by lia. apply rtc_inv in Hk as [->|(m&Hm&Hmj)]; [lia|].
      assert (existsb (edgeb lg n) S = true) as ->; [|by left]. apply existsb_exists. exists m. split; [|by apply edgeb_complete].
      apply elem_of_list_In, HS; [done|]. apply edge_lt in Hm. lia. }
  apply (Gm j); [done| |by apply tc_rtc]. intros k Hk Hkj. apply rtc_inv in Hk as [->|(m&Hm&Hmj)]; [by left|]. exfalso.
  apply edge_lt in Hm. assert (∀ a b, rtc (edge lg) a b → a ≤ b) as Hle by (induction 1 as [|??? He%edge_lt]; lia). apply Hle in Hmj. lia.
Qed.

Definition position (lg : glog) (e : nat) : option nat := fst <$> list_find (λ x, act_ev x.2 = Some e) lg.
Lemma position_spec lg e k : position lg e = Some k → at_ev lg k e.
Proof.
  unfold position. intros H. apply fmap_Some in H as ([k' [t a]]&H&->). apply list_find_Some in H as (H&Ha&_). by exists t, a.
Qed.
Definition apart (lg : glog) (p : acc * acc) : bool :=
  match position lg (a_ev p.1), position lg (a_ev p.2) with
  | Some k, Some l => negb (k =? l) && bool_decide (k ∉ ancestors lg l) && bool_decide (l ∉ ancestors lg k)
  | _, _ => false
  end.
Definition races_g (lg : glog) (c : hb) : list (acc * acc) := List.filter (apart lg) (conflicts c).
(** a race in terms of the graph *)
Definition race_g (lg : glog) (c : hb) : Prop := ∃ a b k l, a ∈ tr c ∧ b ∈ tr c ∧ conflict a b ∧
  at_ev lg k (a_ev a) ∧ at_ev lg l (a_ev b) ∧ k ≠ l ∧ ¬ tc (edge lg) k l ∧ ¬ tc (edge lg) l k.
Lemma races_g_spec lg c : races_g lg c ≠ [] → race_g lg c.
Proof.
  unfold races_g. intros H. destruct (List.filter _ _) as [|[a b] r] eqn:E; [done|].
  assert (Hin : In (a, b) (List.filter (apart lg) (conflicts c))) by (rewrite E; by left).
  apply filter_In in Hin as [Hin Hu]. apply elem_of_list_In, elem_of_list_filter in Hin as [(Hc&_) Hp]. simpl in *.
  unfold pairs in Hp. apply elem_of_list_bind in Hp as (a'&Hp&Ha). apply elem_of_list_bind in Hp as (b'&Hp&Hb).
  apply elem_of_list_singleton in Hp as [= <- <-].
  unfold apart in Hu. simpl in Hu. destruct (position lg (a_ev a)) as [k|] eqn:Hk; [|done]. destruct (position lg (a_ev b)) as [l|] eqn:Hl; [|done].
  apply andb_prop in Hu as [Hu H2]. apply andb_prop in Hu as [H0 H1]. apply bool_decide_eq_true in H1, H2. apply negb_true_iff, Nat.eqb_neq in H0.
  exists a, b, k, l. split_and!; [done|done|done|by apply position_spec|by apply position_spec|done|..]; intros Hx; by apply ancestors_complete in Hx.
Qed.

Definition gfinal cfg i r a ls : glog := g_run iP iFS cfg i r a (init iFS, hinit) ls.
Definition is_ev (x : tid * act) : bool := match act_ev x.2 with Some _ => true | None => false end.
Example C60_family_graph : let ls := family ++ funeral in let lg := gfinal rc false true true ls in
  (length lg, length (List.filter is_ev lg), length (List.filter (λ x, match x.2 with XLock => true | _ => false end) lg)) = (82, 42, 8) ∧
  races_g lg (hfinal rc false true true ls).2 = [].
Proof. vm_compute. split; reflexivity. Qed.
(** The refuted theorems of [PropCoreHb.v], in terms of the graph. *)
Theorem C60_release_graph_refuted i : ∃ ls sc, hsched_ok rc 0 ls ∧ hrun iP iFS rc i false true (init iFS, hinit) ls = Some sc ∧
  race_g (g_run iP iFS rc i false true (init iFS, hinit) ls) sc.2.
Proof.
  exists (family ++ funeral), (hfinal rc i false true (family ++ funeral)). split; [by intros [=]|]. split; [|apply races_g_spec].
  - unfold hfinal. assert (done_ok rc i false true (family ++ funeral) = true) as H by (destruct i; vm_compute; reflexivity).
    unfold done_ok in H. by destruct (hrun _ _ _ _ _ _ _ _).
  - destruct i; vm_compute; by intros [=].
Qed.
Theorem C60_acquire_graph_refuted i : ∃ ls sc, hsched_ok rc 0 ls ∧ hrun iP iFS rc i true false (init iFS, hinit) ls = Some sc ∧
  race_g (g_run iP iFS rc i true false (init iFS, hinit) ls) sc.2.
Proof.
  exists (family ++ funeral), (hfinal rc i true false (family ++ funeral)). split; [by intros [=]|]. split; [|apply races_g_spec].
  - unfold hfinal. assert (done_ok rc i true false (family ++ funeral) = true) as H by (destruct i; vm_compute; reflexivity).
    unfold done_ok in H. by destruct (hrun _ _ _ _ _ _ _ _).
  - destruct i; vm_compute; by intros [=].
Qed.

Print Assumptions C60_logged.
Print Assumptions C60_graph.
Print Assumptions C60_mutex.
Print Assumptions C60_no_race_graph.
Print Assumptions C60_release_graph_refuted.
Print Assumptions C60_acquire_graph_refuted.
