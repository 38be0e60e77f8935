(** C71: example/key_value.cpp.  Whatever other threads do, every texture is
    there from the first time it is asked for until the vector is destroyed and
    in between no further one is loaded for its file, objects made from a texture
    copy none, and after both loops there is one texture for each different file.
    Alone in the process each file is loaded at most once. *)
From Coq Require Import Ascii.
From Verif Require Import SerializeProofs CoreRace Policies Instances PropInner Client PropClient PropKept KeyValueProofs.
From Verif Require Import Factory.

Section Machine.
  Context (FS : factory texture) (HF : factory_spec kveq FS) (cfg : config) (t0 t : tid) (Ht : lck cfg = false → t = t0).
  Context (nm : nat → var) (Hnm : ∀ i j, nm i = nm j → i = j) (grows : nat → growth).
  Notation state := (state (R:=kvrep) (K:=texture) (A:=kvarg) FS).
  Notation own := (named nm).
  Notation reachable := (reachable kvP FS cfg t0).
  Notation prun := (prun kvP FS cfg kvlab t).
  Notation step := (step kvP FS cfg).
  Notation plain := (plain own kvmakes true).
  Notation shows := (shows kvP FS kvlab).
  Implicit Types s : state.
  Definition unused s : Prop := ∀ i, vars s !! nm i = None.
  Lemma unused_agrees s : unused s ↔ agrees kvP FS kvlab own s ∅.
  Proof.
    split.
    - intros E. split; [intros x [i ->]; rewrite lookup_empty; apply E|intros x [? Hx]; by rewrite lookup_empty in Hx].
    - intros [E _] i. specialize (E (nm i) (ex_intro _ i eq_refl)). by rewrite lookup_empty in E.
  Qed.
  Lemma unused_init : unused (init FS).
  Proof. done. Qed.

  (** the vector is being destroyed *)
  Definition leaving {O} (p : prog (A:=kvarg) (L:=texture) (O:=O)) : Prop := ∃ xs o, p = destroy_all xs (Ret o).
  Definition main_post (rs js : list nat) thr (o : outcome) (M : gmap var (tree texture)) : Prop :=
    M = ∅ ∧ match o with Created n => n = length rs + length js | Threw => may_throw grows thr | Undefined => rs = [] ∧ js ≠ [] end.
  Lemma kwp_main thr rs js : kwp own kvmakes thr (orderly (λ _, True) there) (main nm grows rs js) ∅ (main_post rs js thr).
  Proof using Hnm.
    apply kwp_create; [done|done| |done|].
    - intros M l m ws Hc Hl Hh. apply (kwp_ending nm _ _ _ _ l _ [] m); [by rewrite app_nil_r|done|]. intros M' HM'%have_empty. split; [done|].
      rewrite fmap_length, <- (fmap_length snd l), Hl, fmap_length, (copies_length _ _ _ Hc), fmap_length. done.
    - intros -> Hjs. by apply kwp_ret.
  Qed.
  Definition made_post rs js (o : option (list var)) (M : gmap var (tree texture)) : Prop :=
    match o with Some xs => ∃ ws l m, copies (pick <$> rs) js = Some ws ∧ xs = l.*1 ∧ l.*2 = leaf <$> ws ∧ have nm M l m | None => True end.
  Lemma kwp_made rs js : kwp own kvmakes true (orderly (λ o, o = None) there) (made nm grows rs js) ∅ (made_post rs js).
  Proof using Hnm.
    apply kwp_create; [done|done| |done|].
    - intros M l m ws Hc Hl Hh. apply kwp_ret. by exists ws, l, m.
    - intros -> Hjs. by apply kwp_ret.
  Qed.
  Section Generic.
    Context {O : Type} (J : prog (A:=kvarg) (L:=texture) (O:=O) → gmap var (tree texture) → gmap var (tree texture) → Prop).
    Lemma kwp_safe p M Q : kwp own kvmakes true J p M Q → safe own kvmakes p M.
    Proof. intros Hk p' M' Hr. destruct (Hk p' M' Hr) as [H1 _]. destruct p'; eauto. Qed.
    Lemma kwp_post thr p M Q o M' : kwp own kvmakes thr J p M Q → rtc (Client.plain own kvmakes thr) (p, M) (Ret o, M') → Q o M'.
    Proof. intros Hk Hr. by destruct (Hk _ _ Hr) as [H1 _]. Qed.
  End Generic.
  Lemma kwp_hoards {O} (gone : O → Prop) p M Q : kwp own kvmakes true (orderly gone there) p M Q → hoards own kvmakes (ending gone) p M.
  Proof. intros Hk p1 M1 p2 M2 Hr Hp. destruct (Hk p1 M1 Hr) as [_ H2]. by destruct (H2 _ _ Hp). Qed.

  Theorem C71_main s rs js ls :
    reachable s → stack s t = [] → unused s → Forall (foreign own t) ls → Forall (on_time cfg t0) ls →
    ∃ s' w p, prun (s, false, main nm grows rs js) ls = Some (s', w, p) ∧ reachable s' ∧
      ∀ o, p = Ret o → w = false ∧ stack s' t = [] ∧ unused s' ∧
        match o with Created n => n = length rs + length js | Threw => True | Undefined => rs = [] ∧ js ≠ [] end.
  Proof using Hnm HF Ht.
    intros Hre Hst Hun Hf Hon. pose proof (kwp_main true rs js) as Hw.
    destruct (C64_transparent kvP FS cfg kveq (λ _, True) kveq_equivalence kvP_ok HF t0 kvlab kvP_keys own kvmakes kvmakes_make t Ht s (main nm grows rs js) ∅ ls)
      as (s'&w&p&M&Hp&Hre'&Hr&Hw'); [done|done|by apply unused_agrees|by eapply kwp_safe|done|done|].
    exists s', w, p. split; [done|]. split; [done|]. intros o ->. destruct w; [by destruct Hw' as (?&?&?)|]. destruct Hw' as [Hst' Hag].
    destruct (kwp_post _ _ _ _ _ _ _ Hw Hr) as [-> Ho]. split; [done|]. split; [done|]. split; [by apply unused_agrees|]. by destruct o.
  Qed.
  Theorem C71_completes s rs js : (∀ n, grows n ≠ Fails) → (rs = [] → js = []) → reachable s → stack s t = [] → unused s →
    ∃ ls s', Forall (foreign own t) ls ∧ Forall (on_time cfg t0) ls ∧
      prun (s, false, main nm grows rs js) ls = Some (s', false, Ret (Created (length rs + length js))) ∧
      reachable s' ∧ unused s' ∧ quiescent s' ∧ (trk cfg = true → vars s' = ∅ → heap s' = ∅).
  Proof using Hnm HF Ht.
    intros Hg Hc Hre Hst Hun.
    destruct (C64_completes kvP FS cfg kveq (λ _, True) kveq_equivalence kvP_ok HF t0 kvlab kvP_keys own kvmakes kvmakes_make t Ht (main nm grows rs js) s ∅)
      as (ls&s'&o&M&H1&H2&H3&Hr&Hre'&Hq&Hag); [done|done|by apply unused_agrees|by eapply kwp_safe, kwp_main|].
    destruct (kwp_post _ _ _ _ _ _ _ (kwp_main false rs js) Hr) as [-> Ho]. exists ls, s'. split; [by eapply quiet_foreign|]. split; [done|].
    destruct o as [n| |]; [subst n|destruct Ho as [?|[n Hn]]; [done|by destruct (Hg n)]|destruct Ho as [H4 H5]; by destruct H5, Hc].
    split; [done|]. split; [done|]. split; [by apply unused_agrees|]. split; [done|].
    intros Htr Hv. by eapply (empty_at_end kvP FS cfg kveq (λ _, True) kveq_equivalence kvP_ok HF t0).
  Qed.

  (** From when an object has the texture until the vector is destroyed. *)
  Theorem C71_kept s rs js ls1 s1 p1 x v ls2 :
    reachable s → stack s t = [] → unused s → Forall (foreign own t) ls1 → Forall (on_time cfg t0) ls1 →
    prun (s, false, main nm grows rs js) ls1 = Some (s1, false, p1) → own x → value_of s1 x = Some v →
    Forall (foreign own t) ls2 → Forall (on_time cfg t0) ls2 →
    ∃ s2 w p2, prun (s1, false, p1) ls2 = Some (s2, w, p2) ∧ (leaving p2 ∨
      (∃ n, entry s2 v.1 = Some n ∧ n_rep n = v.2) ∧ (∃ y, own y ∧ vars s2 !! y = Some (Some v.1)) ∧
      ∃ new, log s2 = new ++ log s1 ∧ (∀ h w, EvBuild h w ∈ new → w ≠ kvlab v.2) ∧ ∀ w, EvErase v.1 w ∉ new).
  Proof using Hnm HF Ht.
    intros Hre Hst Hun Hf1 Hon1 Hp1 Hx Hv Hf2 Hon2. pose proof (kwp_main true rs js) as Hw.
    assert (∃ T, shows s1 v.1 T) as [T HT].
    { destruct (C64_transparent kvP FS cfg kveq (λ _, True) kveq_equivalence kvP_ok HF t0 kvlab kvP_keys own kvmakes kvmakes_make t Ht s (main nm grows rs js) ∅ ls1)
        as (s'&w&p&M&Hp&Hre'&Hr&Hw'); [done|done|by apply unused_agrees|by eapply kwp_safe|done|done|]. rewrite Hp1 in Hp. injection Hp as <- <- <-.
      destruct Hw' as [_ [Hag _]]. specialize (Hag x Hx). destruct v as [h r]. destruct (M !! x) as [U|].
      - destruct Hag as (v'&Hv'&HU). rewrite Hv in Hv'. injection Hv' as <-. eauto.
      - apply (value_of_var kvP FS cfg kveq (λ _, True) HF t0) in Hv as (Hvx&_); [simpl in Hag; congruence|].
        by apply (reach_inv kvP FS cfg kveq (λ _, True) kveq_equivalence kvP_ok HF t0). }
    destruct (C70_from kvP FS cfg kveq (λ _, True) kveq_equivalence kvP_ok HF t0 kvlab kvP_keys own kvmakes kvmakes_make t Ht (ending (λ _, True)) s (main nm grows rs js) ∅ ls1 s1 p1 x v T ls2)
      as (s2&w&p2&M2&Hp2&_&Hres); [apply ending_final|done|done|by apply unused_agrees|by eapply kwp_safe|by eapply kwp_hoards|done..|].
    exists s2, w, p2. split; [done|]. destruct Hres as [(xs&o&->&_)|(_&Hn&Hy&new&Hlog&Hb&He)]; [left; by exists xs, o|right].
    split; [done|]. split; [done|]. exists new. split; [done|]. split; [|done]. intros h w' Hin. specialize (Hb h w' Hin). apply bool_decide_eq_false in Hb.
    intros ->. apply Hb. by destruct v.2.
  Qed.
  (** An object constructed from a texture: none is copied. *)
  Theorem C71_no_copy s rs js ls s1 x w ys k c s2 :
    reachable s → stack s t = [] → unused s → Forall (foreign own t) ls → Forall (on_time cfg t0) ls →
    prun (s, false, main nm grows rs js) ls = Some (s1, true, Call (ONew x (FromValue w) ys) k) → step s1 (LRun t c) = Next s2 →
    ∃ new, log s2 = new ++ log s1 ∧ ∀ h k, EvBuild h k ∉ new.
  Proof using Hnm HF Ht.
    intros Hre Hst Hun Hf Hon Hrun Hs2. pose proof (kwp_main true rs js) as Hw.
    eapply (C70_reuse kvP FS cfg kveq (λ _, True) kveq_equivalence kvP_ok HF t0 kvlab kvP_keys own kvmakes kvmakes_make t Ht s (main nm grows rs js) ∅ ls s1);
      [done|done|by apply unused_agrees|by eapply kwp_safe|done|done|exact Hrun| |exact Hs2].
    intros M' ts l Hr _ [Hts ->]. apply nil_length_inv in Hts as ->. destruct (Hw _ _ Hr) as [[[p2 M2] Hc] HJ]. by destruct (HJ _ _ Hc) as [_ Hn].
  Qed.
  Theorem C71_once rs js ls : Forall quiet ls → Forall (on_time cfg t0) ls →
    ∃ s w p, prun (init FS, false, main nm grows rs js) ls = Some (s, w, p) ∧ ∀ f, builds kveq f (log s) ≤ 1.
  Proof using Hnm HF Ht.
    intros Hq Hon. pose proof (kwp_main true rs js) as Hw.
    destruct (C70_once kvP FS cfg kveq (λ _, True) kveq_equivalence kvP_ok HF t0 kvlab kvP_keys own kvmakes kvmakes_make t Ht (ending (λ _, True)) (main nm grows rs js) ls)
      as (s&w&p&M&Hp&_&Hb&_); [apply ending_final|apply ending_idle|by eapply kwp_safe|by eapply kwp_hoards|done|done|]. by exists s, w, p.
  Qed.

  (** Up to where the number is printed. *)
  Theorem C71_created s rs js ls s' w xs :
    reachable s → stack s t = [] → unused s → Forall (foreign own t) ls → Forall (on_time cfg t0) ls →
    prun (s, false, made nm grows rs js) ls = Some (s', w, Ret (Some xs)) →
    ∃ ws, copies (pick <$> rs) js = Some ws ∧ Forall2 (λ x w, ∃ v, value_of s' x = Some v ∧ kvlab v.2 = w) xs ws ∧
      (trk cfg = true → quiescent s' → (∀ y, is_Some (vars s' !! y) → own y) → size (heap s') = length (remove_dups (pick <$> rs))).
  Proof using Hnm HF Ht.
    intros Hre Hst Hun Hf Hon Hrun. pose proof (kwp_made rs js) as Hw.
    destruct (C64_transparent kvP FS cfg kveq (λ _, True) kveq_equivalence kvP_ok HF t0 kvlab kvP_keys own kvmakes kvmakes_make t Ht s (made nm grows rs js) ∅ ls)
      as (s1&w1&p&M&Hp&Hre'&Hr&Hw'); [done|done|by apply unused_agrees|by eapply kwp_safe|done|done|].
    rewrite Hrun in Hp. injection Hp as <- <- <-. destruct w; [by destruct Hw' as (?&?&?)|]. destruct Hw' as [_ [Hag Hown]].
    destruct (kwp_post _ _ _ _ _ _ _ Hw Hr) as (ws&l&m&Hc&->&Hl&Hh). exists ws. split; [done|].
    pose proof (reach_inv kvP FS cfg kveq (λ _, True) kveq_equivalence kvP_ok HF t0 s' Hre') as HI.
    assert (Hval : ∀ x T, (x, T) ∈ l → ∃ v, value_of s' x = Some v ∧ shows s' v.1 T).
    { intros x T Hx. assert (HM : M !! x = Some T) by (destruct Hh as (_&HM&_); by apply HM). assert (Ho : own x) by (apply Hown; eauto).
      pose proof (Hag x Ho) as Hv. by rewrite HM in Hv. }
    split.
    { apply Forall2_same_length_lookup_2; [by rewrite fmap_length, <- (fmap_length leaf ws), <- Hl, fmap_length|].
      intros i x f Hx Hf'. apply list_lookup_fmap_Some in Hx as ([y T]&Hy&->). destruct (Hval y T) as (v&Hv&HT); [by eapply elem_of_list_lookup_2|].
      exists v. split; [done|]. assert (E : l.*2 !! i = Some T) by (by rewrite list_lookup_fmap, Hy). rewrite Hl, list_lookup_fmap, Hf' in E. injection E as <-.
      destruct v as [h r]. apply (value_of_var kvP FS cfg kveq (λ _, True) HF t0) in Hv as (_&n&Hn&<-&_); [|done].
      destruct (shows_inv kvP FS kvlab s' h n _ Hn HT) as (ts&ET&_). by injection ET. }
    intros Htr Hq Hall.
    destruct (C64_minimal kvP FS cfg kveq (λ _, True) kveq_equivalence kvP_ok HF t0 kvlab kvP_keys s' Htr Hre' Hq) as (Q1&Q2&Q3).
    set (cs := leaf <$> remove_dups (pick <$> rs)).
    assert (Hcs : ∀ T, T ∈ cs ↔ T ∈ l.*2).
    { intros T. unfold cs. rewrite Hl, !elem_of_list_fmap. by setoid_rewrite elem_of_remove_dups; setoid_rewrite (λ v, copies_same _ _ _ v Hc). }
    assert (HT : ∀ T, (∃ a, shows s' a T) ↔ T ∈ cs).
    { intros T. rewrite Q3, Hcs. split.
      - intros (y&u&W&path&Hu&HW&Hsub).
        assert (∃ U, (y, U) ∈ l) as (U&Hy).
        { destruct u as [h r]. apply (value_of_var kvP FS cfg kveq (λ _, True) HF t0) in Hu as (Hy&_); [|done].
          assert (Hoy : own y) by (apply Hall; eauto). pose proof (Hag y Hoy) as Hd. destruct (M !! y) as [U|] eqn:EM; [|unfold denotes in Hd; congruence].
          destruct Hh as (_&HM&_). apply HM in EM. eauto. }
        destruct (Hval _ _ Hy) as (v&Hv&Hsv). assert (v = u) as -> by congruence. assert (W = U) as -> by (by apply (Q2 u.1 u.1)).
        assert (HU : U ∈ l.*2) by (apply elem_of_list_fmap; by exists (y, U)). pose proof HU as HU'. rewrite Hl in HU'. apply elem_of_list_fmap in HU' as (f&->&_).
        destruct path as [|i path]; [|by destruct path]. by injection Hsub as <-.
      - intros ([y U]&->&Hy)%elem_of_list_fmap. destruct (Hval _ _ Hy) as (v&Hv&Hsv). by exists y, v, U, []. }
    assert (∃ bs, Forall2 (λ T a, shows s' a T) cs bs) as [bs Has].
    { assert (Hall' : Forall (λ T, ∃ a, shows s' a T) cs) by (apply Forall_forall; intros T HTc; by apply HT). clear HT Hcs.
      induction Hall' as [|T ts [a Ha] _ [bs IH]]; [by exists []|]. exists (a :: bs). by constructor. }
    assert (Hnc : NoDup cs) by (apply NoDup_fmap_2; [intros ? ? [=]; done|apply NoDup_remove_dups]).
    assert (Hnd : NoDup bs).
    { apply NoDup_alt. intros i j a Hi Hj. destruct (Forall2_lookup_r _ _ _ _ _ Has Hi) as (T&HTi&HTa). destruct (Forall2_lookup_r _ _ _ _ _ Has Hj) as (U&HUj&HUa).
      assert (T = U) as -> by (by apply (Q2 a a T U)). by eapply NoDup_lookup. }
    assert (Hp : (map_to_list (heap s')).*1 ≡ₚ bs).
    { apply NoDup_Permutation; [apply NoDup_fst_map_to_list|done|]. intros a. rewrite elem_of_list_fmap. split.
      - intros ([a' n]&->&Hn%elem_of_map_to_list). simpl. destruct (Q1 a' n Hn) as [T HTa]. assert (HTc : T ∈ cs) by (apply HT; eauto).
        apply elem_of_list_lookup in HTc as [i Hi]. destruct (Forall2_lookup_l _ _ _ _ _ Has Hi) as (b&Hb&HbT).
        assert (a' = b) as -> by (by apply (Q2 a' b T T)). by eapply elem_of_list_lookup_2.
      - intros Ha. apply elem_of_list_lookup in Ha as [i Hi]. destruct (Forall2_lookup_r _ _ _ _ _ Has Hi) as (T&_&HTa).
        assert (∃ n, heap s' !! a = Some n) as [n Hn] by (inversion HTa; subst; eauto using entry_heap). exists (a, n). split; [done|]. by apply elem_of_map_to_list. }
    transitivity (length cs); [rewrite (Forall2_length _ _ _ Has), <- Hp, fmap_length; done|]. unfold cs. by rewrite fmap_length.
  Qed.
  (** Alone in the process: the files loaded are those asked for. *)
  Theorem C71_loads rs js ls s xs : Forall quiet ls → Forall (on_time cfg t0) ls →
    prun (init FS, false, made nm grows rs js) ls = Some (s, false, Ret (Some xs)) →
    ∀ f, builds kveq f (log s) = if decide (f ∈ pick <$> rs) then 1 else 0.
  Proof using Hnm HF Ht.
    intros Hq Hon Hrun f. pose proof (kwp_made rs js) as Hw.
    assert (H0 : reachable (init FS)) by (exists []; split; [by unfold sched_ok; intros; constructor|done]).
    assert (Hf : Forall (foreign own t) ls) by (by eapply quiet_foreign).
    destruct (C70_once kvP FS cfg kveq (λ _, True) kveq_equivalence kvP_ok HF t0 kvlab kvP_keys own kvmakes kvmakes_make t Ht (ending (λ o, o = None)) (made nm grows rs js) ls)
      as (s1&w&p&M&Hp&_&Hb&Hwd); [apply ending_final|apply ending_idle|by eapply kwp_safe|by eapply kwp_hoards|done|done|].
    rewrite Hrun in Hp. injection Hp as <- <- <-.
    destruct (C71_created (init FS) rs js ls s false xs) as (ws&Hc&Hxs&_); [done..|].
    destruct (C64_transparent kvP FS cfg kveq (λ _, True) kveq_equivalence kvP_ok HF t0 kvlab kvP_keys own kvmakes kvmakes_make t Ht (init FS) (made nm grows rs js) ∅ ls)
      as (s1&w1&p&M1&Hp&Hre&Hr&Hw'); [done|done|by apply unused_agrees|by eapply kwp_safe|done|done|]. rewrite Hrun in Hp. injection Hp as <- <- <-.
    pose proof (reach_inv kvP FS cfg kveq (λ _, True) kveq_equivalence kvP_ok HF t0 s Hre) as HI.
    destruct (decide (f ∈ pick <$> rs)) as [Hin|Hout].
    - apply Nat.le_antisymm; [apply Hb|]. rewrite <- (copies_same _ _ _ f Hc) in Hin. apply elem_of_list_lookup in Hin as [i Hi].
      destruct (Forall2_lookup_r _ _ _ _ _ Hxs Hi) as (x&_&[h r]&Hv&Hlab). apply (value_of_var kvP FS cfg kveq (λ _, True) HF t0) in Hv as (Hvx&n&Hn&<-&Hd); [|done].
      simpl in Hlab. pose proof (C70_constructed kvP FS cfg kveq (λ _, True) kveq_equivalence kvP_ok HF t0 s h n kvP_late Hre Hn Hd) as Hge.
      assert (E : p_key kvP (n_rep n) = f) by (rewrite <- Hlab; by destruct (n_rep n)). by rewrite E in Hge.
    - assert (builds kveq f (log s) ≠ 1); [|specialize (Hb f); lia]. intros E. destruct (Hwd eq_refl) as [(ys&o&E'&->)|Hx]; [by destruct ys|].
      destruct (Hx f E) as (x&[h r]&Hx'&Hv&Hk). destruct Hw' as [_ [Hag Hown]]. destruct (kwp_post _ _ _ _ _ _ _ Hw Hr) as (ws'&l&m&Hc'&->&Hl&Hh).
      assert (ws' = ws) as -> by congruence. pose proof Hv as Hv'. apply (value_of_var kvP FS cfg kveq (λ _, True) HF t0) in Hv' as (Hvx&n&Hn&<-&_); [|done].
      pose proof (Hag x Hx') as Hd. destruct (M1 !! x) as [U|] eqn:EM; [|unfold denotes in Hd; congruence]. destruct Hd as (v&Hv2&HU). rewrite Hv in Hv2. injection Hv2 as <-.
      destruct Hh as (_&HM&_). apply HM in EM. assert (HUl : U ∈ l.*2) by (apply elem_of_list_fmap; by exists (x, U)). rewrite Hl in HUl.
      apply elem_of_list_fmap in HUl as (g&->&Hg). destruct (shows_inv kvP FS kvlab s h n _ Hn HU) as (ts&ET&_). injection ET as -> _.
      apply Hout. rewrite <- (copies_same _ _ _ f Hc). apply bool_decide_eq_true in Hk. simpl in Hk. destruct (n_rep n); simpl in *; by subst.
  Qed.
End Machine.

(** ** Example: thread 2 meanwhile has the sand loaded, twice *)
Import Strings.String.
Definition kvhash (w : texture) : nat := foldr (λ c n, nat_of_ascii c + n) 0 w.
Definition kvFS : factory texture := hashed_factory kvhash kveq 1 igrow.
Definition kvHF : factory_spec kveq kvFS.
Proof. apply hashed_factory_spec; [apply kveq_equivalence|]. by intros k l ->%bool_decide_eq_true. Defined.
Definition even (n : nat) : var := 2 * n.
Lemma even_inj i j : even i = even j → i = j.
Proof. unfold even. lia. Qed.
Definition growth3 (n : nat) : growth := if n mod 3 =? 0 then Moves else Fits.
Definition rounds (n i : nat) (b : bool) : list (clab (A:=kvarg)) :=
  List.concat ((λ j, [Go; Env (LRun 1 (Choice (100 + 2 * (i + j)) b)); Env (LRun 2 (Choice (101 + 2 * (i + j)) false))]) <$> seq 0 n).
Definition sand : texture := list_ascii_of_string "sand.texture".
Definition meanwhile (n : nat) : list (clab (A:=kvarg)) :=
  [Env (LStart 2 (ONew 1 (FromKey sand) []))] ++ rounds 15 0 false ++ [Env (LStart 2 (ODestroy 1))] ++ rounds 15 15 false ++
  [Env (LStart 2 (ONew 1 (FromValue sand) []))] ++ rounds n 30 false.
Definition alone (n : nat) : list (clab (A:=kvarg)) := List.concat ((λ j, [Go; Env (LRun 1 (Choice (100 + j) false))]) <$> seq 0 n).
Definition at_end {O} (c : option (state (R:=kvrep) (K:=texture) (A:=kvarg) kvFS * bool * prog (A:=kvarg) (L:=texture) (O:=O))) : option (O * nat * list var) :=
  match c with
  | Some (s, false, Ret o) => Some (o, size (heap s), (map_to_list (vars s)).*1)
  | _ => None
  end.
Definition loaded {O} (f : texture) (c : option (state (R:=kvrep) (K:=texture) (A:=kvarg) kvFS * bool * prog (A:=kvarg) (L:=texture) (O:=O))) : option nat :=
  match c with Some (s, _, _) => Some (builds kveq f (log s)) | None => None end.
Lemma meanwhile_foreign n : Forall (foreign (named even) 1) (meanwhile n).
Proof.
  assert (Hr : ∀ n i b, Forall (foreign (named even) 1) (rounds n i b)).
  { intros m i b. apply Forall_concat, Forall_fmap, Forall_forall. intros j _. repeat constructor; simpl; done. }
  unfold meanwhile. apply Forall_app_2; [|apply Forall_app_2; [apply Hr|apply Forall_app_2; [|apply Forall_app_2; [apply Hr|apply Forall_app_2; [|apply Hr]]]]];
    (constructor; [|constructor]); intros _ x [j ->]; simpl; apply bool_decide_eq_false; unfold even; lia.
Qed.
Lemma alone_quiet n : Forall quiet (alone n).
Proof. apply Forall_concat, Forall_fmap, Forall_forall. intros j _. repeat constructor; simpl; done. Qed.
Definition rs0 : list nat := [9; 2; 17; 10; 1].
Definition js0 : list nat := [3; 8; 4].
Example C71_at_work :
  unused kvFS even (init kvFS) ∧ Forall (foreign (named even) 1) (meanwhile 300) ∧ Forall (on_time rc 1) (meanwhile 300) ∧
  at_end (prun kvP kvFS rc kvlab 1 (init kvFS, false, main even growth3 rs0 js0) (meanwhile 300)) = Some (Created 8, 1, [1]).
Proof. split; [done|]. split; [apply meanwhile_foreign|]. split; [apply Forall_forall; intros [l|] _; done|]. vm_compute. reflexivity. Qed.
(** the files are 1, 2, 1, 2, 1, and then the textures 2, 1, 1 *)
Example C71_alone : Forall quiet (alone 300) ∧ Forall (on_time rc 1) (alone 300) ∧
  let c := prun kvP kvFS rc kvlab 1 (init kvFS, false, made even growth3 rs0 js0) (alone 300) in
  (match at_end c with Some (Some xs, n, ys) => List.length xs = 8 ∧ n = 2 ∧ List.length ys = 8 | _ => False end) ∧
  copies (pick <$> rs0) js0 = Some (pick <$> [1; 2; 1; 2; 1; 2; 1; 1]) ∧
  loaded sand c = Some 1 ∧ loaded (pick 2) c = Some 1 ∧ loaded (pick 3) c = Some 0 ∧
  at_end (prun kvP kvFS rc kvlab 1 (init kvFS, false, main even growth3 rs0 js0) (alone 300)) = Some (Created 8, 0, []).
Proof. split; [apply alone_quiet|]. split; [apply Forall_forall; intros [l|] _; done|]. vm_compute. split_and!; reflexivity. Qed.
Example C71_wrong :
  at_end (prun kvP kvFS rc kvlab 1 (init kvFS, false, main even growth3 [] js0) (alone 5)) = Some (Undefined, 0, []) ∧
  at_end (prun kvP kvFS rc kvlab 1 (init kvFS, false, main even growth3 rs0 js0) (rounds 30 0 false ++ rounds 200 30 true)) = Some (Threw, 0, []).
Proof. vm_compute. split_and!; reflexivity. Qed.
(** a state in which an object is being made from a texture *)
Fixpoint copying (c : state (R:=kvrep) (K:=texture) (A:=kvarg) kvFS * bool * prog (A:=kvarg) (L:=texture) (O:=outcome)) (ls : list (clab (A:=kvarg))) : option texture :=
  match c, ls with
  | (_, true, Call (ONew _ (FromValue w) _) _), _ => Some w
  | _, l :: ls => match prun kvP kvFS rc kvlab 1 c [l] with Some c => copying c ls | None => None end
  | _, [] => None
  end.
Example C71_copying : copying (init kvFS, false, main even growth3 rs0 js0) (alone 300) = Some (pick 2).
Proof. vm_compute. reflexivity. Qed.
(** Without a vector that keeps the textures, the file is loaded twice. *)
Definition fleeting : prog (A:=kvarg) (L:=texture) (O:=unit) :=
  Call (ONew 0 (FromKey sand) []) (λ _, Call (ODestroy 0) (λ _, Call (ONew 2 (FromKey sand) []) (λ _, Call (ODestroy 2) (λ _, Ret tt)))).
Example C70_fleeting : loaded sand (prun kvP kvFS rc kvlab 1 (init kvFS, false, fleeting) (alone 100)) = Some 2.
Proof. vm_compute. reflexivity. Qed.
(** [C70]'s hypotheses *)
Example C70_hypotheses : let p := main even growth3 rs0 js0 in
  final (named even) kvmakes (ending (λ _ : outcome, True)) ∧ idle (ending (A:=kvarg) (L:=texture) (λ _ : outcome, True)) ∧
  safe (named even) kvmakes p ∅ ∧ hoards (named even) kvmakes (ending (λ _, True)) p ∅ ∧
  (∀ p ks r, p_make kvP p ks = Some r → p_val kvP r = None).
Proof.
  split_and!; [apply ending_final|apply ending_idle| | |apply kvP_late].
  - eapply kwp_safe, kwp_main, even_inj.
  - eapply kwp_hoards, kwp_main, even_inj.
Qed.

Print Assumptions C70_kept.
Print Assumptions C70_from.
Print Assumptions C70_once.
Print Assumptions C70_reuse.
Print Assumptions C70_constructed.
Print Assumptions C71_main.
Print Assumptions C71_completes.
Print Assumptions C71_kept.
Print Assumptions C71_no_copy.
Print Assumptions C71_once.
Print Assumptions C71_created.
Print Assumptions C71_loads.
