(** C74: programs in several threads with concurrent_factory, each with its own
    objects, behave as they would alone and with plain values. *)
From Verif Require Import PropTeam.
From Verif Require Import ConTeam PropConcurrent.
From Verif Require Import ConcurrentProofs PropConClient.

Section Spec.
  Context {A L O : Type}.
  (** threads without a program use other objects *)
  Definition cstranger (own : tid → var → Prop) (l : ctlab (A:=A)) : Prop :=
    match l with CTEnv l => ∀ u, begins u l = false → ∀ x, own u x → cwrites x l = false | CTGo _ => True end.
  (** thread 0 is the collector *)
  Definition con_team (ps : gmap tid (bool * prog (A:=A) (L:=L) (O:=O))) : Prop := ∀ (u : tid) w p, ps !! u = Some (w, p) → u ≠ gc_tid ∧ flat p.
  Definition coutsider (Own : var → Prop) (l : cflab (A:=A)) : Prop :=
    match l with CFTeam (CTEnv l) => ∀ x, Own x → cwrites x l = false | _ => True end.
End Spec.

Section Sim.
  Context {K A R V L O : Type}.
  Context (P : Core.policy K A R V) (eqv : K → K → bool) (good : R → Prop).
  Context (Heq : equivalence eqv) (HP : policy_ok eqv good P).
  Context `{EqDecision L} (lab : R → L).
  Context (Hkey : ∀ r r', eqv (p_key P r) (p_key P r') = bool_decide (lab r = lab r') && bool_decide (p_kids P r = p_kids P r')).
  Context (own : tid → var → Prop) (makes : A → nat → L → Prop).
  Context (Hmakes : ∀ a ks l, makes a (length ks) l → ∃ r, p_make P a ks = Some r ∧ p_kids P r = ks ∧ lab r = l).
  (** no object belongs to two threads *)
  Context (Hown : ∀ u v x, own u x → own v x → u = v).

  Notation state := (state (K:=K) (A:=A) (R:=R)).
  Notation reachable := (reachable P eqv).
  Notation cagrees u := (cagrees P lab (own u)).
  Notation prog := (prog (A:=A) (L:=L) (O:=O)).
  Notation team := (gmap tid (bool * prog)).
  Notation plain u b := (Client.plain (O:=O) (own u) makes b).
  Notation safe u := (safe (O:=O) (own u) makes).
  Notation sim u := (PropConClient.sim (O:=O) P eqv lab (own u) makes u).
  Notation step := (step P eqv).
  Notation ctstep := (ctstep P eqv lab).
  Notation ctrun := (ctrun P eqv lab).
  Notation env := (gmap var (tree L)).
  Implicit Types (s : state) (ps : team) (Ms : tid → env).

  Definition ctsim (c : state * team) Ms : Prop :=
    reachable c.1 ∧ ∀ (u : tid) w p, c.2 !! u = Some (w, p) → u ≠ gc_tid ∧ sim u (c.1, w, p) (Ms u) ∧ safe u p (Ms u) ∧ flat p.

  (** a call writes only to objects of its program *)
  Lemma cplain_writes u (t : tid) o o' k (M : env) c x : (∀ y, is_Some (M !! y) → own u y) → plain u true (Call o k, M) c → cop o = Some o' → cwrites x (LStart t o') = true → own u x.
  Proof.
    intros HM Hp Ho Hx. eapply (plain_writes own makes u t o k M c x HM Hp). destruct o; simpl in Ho; simplify_eq; done.
  Qed.
  Lemma csim_owns u s p M : sim u (s, false, p) M → ∀ y, is_Some (M !! y) → own u y.
  Proof. intros [_ [_ [_ H]]]. exact H. Qed.

  Lemma ctsim_step c Ms e : ctsim c Ms → cstranger own e →
    ∃ c' Ms', ctstep c e = Some c' ∧ ctsim c' Ms' ∧ dom c'.2 = dom c.2 ∧
      (∀ u w p w' p', c.2 !! u = Some (w, p) → c'.2 !! u = Some (w', p') → rtc (plain u true) (p, Ms u) (p', Ms' u)) ∧
      ∀ u, e ≠ CTGo u → Ms' u = Ms u ∧ c'.2 !! u = c.2 !! u.
  Proof.
    destruct c as [s ps]. intros [Hre Hps] Hf. cbn [fst snd] in *.
    assert (Hsame : ∀ Ms u w p w' p', ps !! u = Some (w, p) → ps !! u = Some (w', p') → rtc (plain u true) (p, Ms u) (p', Ms u)) by (intros; simplify_eq; done).
    destruct e as [l|u].
    - cbn [ConTeam.ctstep]. destruct (match l with LStart u _ => bool_decide (is_Some (ps !! u)) | _ => false end) eqn:Est.
      { exists (s, ps), Ms. split; [done|]. split; [done|]. split; [done|]. split; [apply Hsame|done]. }
      pose proof (reach_inv P eqv good Heq HP s Hre) as HI. pose proof (step_inv P eqv good Heq HP s l HI) as Hok.
      destruct (step s l) as [s'| |] eqn:E; [| |done].
      2: { exists (s, ps), Ms. split; [done|]. split; [done|]. split; [done|]. split; [apply Hsame|done]. }
      exists (s', ps), Ms. split; [done|]. split; [|split; [done|split; [apply Hsame|done]]].
      split; [by eapply (reach_step P eqv s l)|]. cbn [fst snd]. intros u w p Hu. destruct (Hps u w p Hu) as (Hgc&Hsim&Hsafe). split; [done|]. split; [|done].
      assert (Hbg : begins u l = false).
      { destruct l as [v o| | | |]; try done. simpl. apply bool_decide_eq_false. intros ->. rewrite Hu in Est. apply bool_decide_eq_false in Est. destruct Est. eauto. }
      eapply (sim_env P eqv good Heq HP lab (own u) makes u Hgc s w p l (Ms u) s' Hsim); [| |done].
      + exact Hbg.
      + intros x Hx. by eapply Hf.
    - cbn [ConTeam.ctstep]. destruct (ps !! u) as [[w p]|] eqn:Hu.
      2: { exists (s, ps), Ms. split; [done|]. split; [done|]. split; [done|]. split; [apply Hsame|done]. }
      destruct (Hps u w p Hu) as (Hgc&Hsim&Hsafe&Hfl).
      destruct (sim_step P eqv good Heq HP lab Hkey (own u) makes Hmakes u Hgc (s, w, p) (Ms u) CGo Hsim Hsafe Hfl I) as ([[s' w'] p']&M'&Hgo&Hsim'&Hr).
      cbn [ConClient.cpstep] in Hgo. rewrite Hgo. cbn [snd] in *. exists (s', <[u:=(w', p')]> ps), (λ v, if decide (v = u) then M' else Ms v). split; [done|]. split.
      + split; [by destruct Hsim' as [? _]|]. cbn [fst snd]. intros v w1 p1 Hv. destruct (decide (v = u)) as [->|Hne].
        { rewrite lookup_insert in Hv. injection Hv as <- <-. split; [done|]. split; [done|]. split; [by eapply safe_plain|].
          by eapply (flat_steps (own u) makes (p, Ms u) (p', M')). }
        rewrite lookup_insert_ne in Hv by done. destruct (Hps v w1 p1 Hv) as (Hgc1&Hsim1&Hsafe1). split; [done|]. split; [|done].
        (* what the others see *)
        assert (Hcase : s' = s ∨ ∃ o o' k, w = false ∧ p = Call o k ∧ cop o = Some o' ∧ step s (LStart u o') = Next s').
        { clear -Hgo. destruct p as [o|o k|x path k|x path y path' k]; cbn [cgo] in Hgo; [left; congruence| |repeat case_match; simplify_eq; by left..].
          destruct w; [repeat case_match; simplify_eq; by left|]. destruct (cop o) as [o'|] eqn:Eo; [|done]. destruct (step s (LStart u o')) as [s1| |] eqn:E; simplify_eq. right. by exists o, o', k. }
        destruct Hcase as [->|(o&o'&k&->&->&Ho&Hs)]; [done|].
        destruct (Hsafe _ _ (rtc_refl _ _)) as [[? ?]|[c Hc]]; [done|].
        eapply (sim_env P eqv good Heq HP lab (own v) makes v Hgc1 s w1 p1 (LStart u o') (Ms v) s' Hsim1); [| |done].
        * simpl. apply bool_decide_eq_false. congruence.
        * intros x Hx. destruct (cwrites x (LStart u o')) eqn:Hw; [|done]. destruct Hne. apply (Hown _ _ x Hx).
          eapply cplain_writes; [by eapply csim_owns|done|done|done].
      + cbn [fst snd]. split.
        { rewrite dom_insert_L. apply elem_of_dom_2 in Hu. set_solver. }
        split.
        2: { intros v Hv. assert (v ≠ u) by congruence. rewrite lookup_insert_ne by done. destruct (decide (v = u)); done. }
        intros v w1 p1 w2 p2 Hv Hv'. destruct (decide (v = u)) as [->|Hne].
        * rewrite lookup_insert in Hv'. simplify_eq. destruct (decide (u = u)); done.
        * rewrite lookup_insert_ne in Hv' by done. simplify_eq. destruct (decide (v = u)); done.
  Qed.
  Lemma ctsim_run ls : ∀ c Ms, ctsim c Ms → Forall (cstranger own) ls →
    ∃ c' Ms', ctrun c ls = Some c' ∧ ctsim c' Ms' ∧ dom c'.2 = dom c.2 ∧
      (∀ u w p w' p', c.2 !! u = Some (w, p) → c'.2 !! u = Some (w', p') → rtc (plain u true) (p, Ms u) (p', Ms' u)) ∧
      ∀ u, CTGo u ∉ ls → Ms' u = Ms u ∧ c'.2 !! u = c.2 !! u.
  Proof.
    induction ls as [|e ls IH]; intros c Ms Hs Hf.
    { exists c, Ms. split; [done|]. split; [done|]. split; [done|]. split; [|done]. intros; simplify_eq; done. }
    apply Forall_cons in Hf as [Hl Hf].
    destruct (ctsim_step c Ms e Hs Hl) as (c1&M1&Hp&Hs1&Hd1&Hr1&Hk1). cbn [ConTeam.ctrun]. rewrite Hp.
    destruct (IH c1 M1 Hs1 Hf) as (c2&M2&H2&Hs2&Hd2&Hr2&Hk2). exists c2, M2. split; [done|]. split; [done|]. split; [congruence|]. split.
    2: { intros u Hu. apply not_elem_of_cons in Hu as [Hu1 Hu2]. destruct (Hk1 u) as [<- <-]; [congruence|]. by apply Hk2. }
    intros u w p w' p' Hu Hu'. assert (is_Some (c1.2 !! u)) as [[w1 p1] H1] by (apply elem_of_dom; rewrite Hd1; by eapply elem_of_dom_2).
    etrans; [by eapply Hr1|by eapply Hr2].
  Qed.

  (** ** C74 *)
  Definition cready s ps Ms : Prop :=
    reachable s ∧ con_team ps ∧ ∀ (u : tid) w p, ps !! u = Some (w, p) → w = false ∧ stack s u = [] ∧ cagrees u s (Ms u) ∧ safe u p (Ms u).
  Lemma cready_ctsim s ps Ms : cready s ps Ms → ctsim (s, ps) Ms.
  Proof. intros (Hre&Hc&H). split; [done|]. intros u w p Hu. destruct (H u w p Hu) as (->&?&?&?). destruct (Hc u false p Hu). split; [done|]. split; [done|]. done. Qed.

  Theorem C74_team s ps Ms ls : cready s ps Ms → Forall (cstranger own) ls →
    ∃ s' ps' Ms', ctrun (s, ps) ls = Some (s', ps') ∧ reachable s' ∧ dom ps' = dom ps ∧
      ∀ (u : tid) p (w : bool) p', ps !! u = Some (false, p) → ps' !! u = Some (w, p') → rtc (plain u true) (p, Ms u) (p', Ms' u) ∧
        (if w then ∃ o k, p' = Call o k else stack s' u = [] ∧ cagrees u s' (Ms' u)).
  Proof.
    intros Hr Hf. destruct (ctsim_run ls (s, ps) Ms) as ([s' ps']&Ms'&H1&[Hre' H2]&H3&H4&_); [by apply cready_ctsim|done|].
    exists s', ps', Ms'. split; [done|]. split; [done|]. split; [done|]. intros u p w p' Hu Hu'. split; [by eapply H4|].
    destruct (H2 u w p' Hu') as (_&[_ Hw]&_). destruct w; [|done]. destruct Hw as (o&k&->&_). eauto.
  Qed.

  (** they can all be brought to their ends *)
  Lemma ctrun_app (c : state * team) ls ls' : ctrun c (ls ++ ls') = match ctrun c ls with Some c' => ctrun c' ls' | None => None end.
  Proof. revert c. induction ls as [|l ls IH]; intros c; [done|]. cbn [app ConTeam.ctrun]. by destruct (ctstep c l). Qed.
  Definition clift (u : tid) (e : conlab (A:=A)) : ctlab (A:=A) := match e with CEnv l => CTEnv l | CGo => CTGo u end.
  Lemma ctrun_cprun u ls : ∀ s w (p : prog) s' w' p' ps, Forall cquiet ls → ps !! u = Some (w, p) →
    cprun P eqv lab u (s, w, p) ls = Some (s', w', p') → ctrun (s, ps) (clift u <$> ls) = Some (s', <[u:=(w', p')]> ps).
  Proof.
    induction ls as [|e ls IH]; intros s w p s' w' p' ps Hq Hu; cbn [ConClient.cprun fmap list_fmap ConTeam.ctrun].
    { intros [= -> -> ->]. by rewrite insert_id. }
    apply Forall_cons in Hq as [Hl Hq]. destruct (cpstep P eqv lab u (s, w, p) e) as [[[s1 w1] p1]|] eqn:E; [|done]. intros Hr.
    destruct e as [[v o|v thr| | |]|]; try done; cbn [clift ConTeam.ctstep cpstep begins] in *.
    - destruct (step s (LRun v thr)) as [s2| |]; simplify_eq; by eapply IH.
    - rewrite Hu, E. replace (<[u:=(w', p')]> ps) with (<[u:=(w', p')]> (<[u:=(w1, p1)]> ps)) by apply insert_insert.
      eapply IH; [done|by rewrite lookup_insert|done].
  Qed.
  Definition cfinished ps : Prop := ∀ (u : tid) w p, ps !! u = Some (w, p) → w = false ∧ ∃ o, p = Ret o.
  Definition ccalm (e : ctlab (A:=A)) : Prop := match e with CTEnv l => runs l | CTGo _ => True end.
  Lemma ccalm_stranger e : ccalm e → cstranger own e.
  Proof. by destruct e as [[| | | |]|]. Qed.
  Theorem C74_completes s ps Ms : cready s ps Ms →
    ∃ ls s' ps' Ms', Forall ccalm ls ∧ ctrun (s, ps) ls = Some (s', ps') ∧ reachable s' ∧ dom ps' = dom ps ∧ cfinished ps' ∧
      ∀ (u : tid) p o, ps !! u = Some (false, p) → ps' !! u = Some (false, Ret o) → stack s' u = [] ∧ rtc (plain u false) (p, Ms u) (Ret o, Ms' u) ∧ cagrees u s' (Ms' u).
  Proof.
    intros Hr0.
    (* one after the other *)
    assert (Hg : ∀ D : gset tid, ∃ ls s' ps' Ms', Forall ccalm ls ∧ ctrun (s, ps) ls = Some (s', ps') ∧ dom ps' = dom ps ∧ cready s' ps' Ms' ∧
      ∀ (u : tid) p, ps !! u = Some (false, p) → if bool_decide (u ∈ D) then ∃ o, ps' !! u = Some (false, Ret o) ∧ rtc (plain u false) (p, Ms u) (Ret o, Ms' u)
        else ps' !! u = Some (false, p) ∧ Ms' u = Ms u).
    { intros D. induction D as [|u D Hu IH] using set_ind_L; [exists [], s, ps, Ms; by split_and!|].
      destruct IH as (ls&s1&ps1&Ms1&H1&H3&H4&Hr1&H5).
      destruct (ps !! u) as [[w0 p]|] eqn:Eu.
      2: { exists ls, s1, ps1, Ms1. split_and!; try done. intros v q Hv. specialize (H5 v q Hv). assert (v ≠ u) by congruence.
           case_bool_decide; case_bool_decide; try set_solver; done. }
      destruct Hr0 as (Hre0&Hc0&Hr0). destruct (Hr0 u w0 p Eu) as (->&_). pose proof (H5 u p Eu) as Hp1. rewrite bool_decide_false in Hp1 by done. destruct Hp1 as [Hp1 HM1].
      pose proof Hr1 as (Hre1&Hc1&Hrr1). destruct (Hrr1 u false p Hp1) as (_&Hst&Hag&Hsafe). destruct (Hc1 u false p Hp1) as [Hgc Hfl].
      destruct (C72_completes P eqv good Heq HP lab Hkey (own u) makes Hmakes u Hgc p s1 (Ms1 u) Hre1 Hst Hag Hsafe Hfl) as (ls2&s2&o&M2&Q1&Q3&Q4&Q5&Q6&Q7).
      pose proof (ctrun_cprun u ls2 s1 false p s2 false (Ret o) ps1 Q1 Hp1 Q3) as Htr.
      assert (Hcalm2 : Forall ccalm (clift u <$> ls2)) by (apply Forall_fmap; eapply Forall_impl; [exact Q1|]; intros [l|]; done).
      (* the others stay where they are *)
      assert (Hst2 : Forall (cstranger own) (clift u <$> ls2)) by (eapply Forall_impl; [exact Hcalm2|]; apply ccalm_stranger).
      destruct (ctsim_run (clift u <$> ls2) (s1, ps1) Ms1) as ([s3 ps3]&Ms3&T1&[_ T2]&_&_&T3); [by apply cready_ctsim|done|].
      rewrite Htr in T1. injection T1 as <- <-. cbn [fst snd] in T2, T3.
      exists (ls ++ (clift u <$> ls2)), s2, (<[u:=(false, Ret o)]> ps1), (λ v, if decide (v = u) then M2 else Ms1 v).
      split; [by apply Forall_app_2|]. split; [by rewrite ctrun_app, H3|].
      split; [rewrite dom_insert_L, H4; apply elem_of_dom_2 in Eu; set_solver|]. split.
      - split; [done|]. split; [intros v w q Hv; destruct (decide (v = u)) as [->|Hne]; [rewrite lookup_insert in Hv; injection Hv as <- <-; done|rewrite lookup_insert_ne in Hv by done; by eapply Hc1]|].
        intros v w q Hv. destruct (decide (v = u)) as [->|Hne].
        + rewrite lookup_insert in Hv. injection Hv as <- <-. split; [done|]. split; [done|]. split; [done|].
          intros p' M' Hr'. inversion Hr' as [|? ? ? Hst' _]; subst; [left; eauto|]. inversion Hst'.
        + rewrite lookup_insert_ne in Hv by done. destruct (Hrr1 v w q Hv) as (->&_&Hagv&Hsv).
          destruct (T3 v) as [HMv _]; [intros [[l|] [[=] _]]%elem_of_list_fmap; congruence|].
          destruct (T2 v false q) as (_&[_ [Hsv3 Hag3]]&_); [by rewrite lookup_insert_ne|]. destruct (decide (v = u)); [done|]. rewrite HMv in Hag3. done.
      - intros v q Hv. destruct (decide (v = u)) as [->|Hne].
        + rewrite bool_decide_true by set_solver. simplify_eq. exists o. rewrite lookup_insert. split; [done|]. by rewrite <- HM1.
        + specialize (H5 v q Hv). rewrite lookup_insert_ne by done.
          case_bool_decide; case_bool_decide; try set_solver; done. }
    destruct (Hg (dom ps)) as (ls&s'&ps'&Ms'&H1&H3&H4&(Hre'&_&H5)&H6). exists ls, s', ps', Ms'. split_and!; try done.
    - intros u w p Hu. assert (is_Some (ps !! u)) as [[w0 p0] Hu0] by (apply elem_of_dom; rewrite <- H4; by eapply elem_of_dom_2).
      destruct Hr0 as (_&_&Hr0). destruct (Hr0 u w0 p0 Hu0) as (->&_). specialize (H6 u p0 Hu0). rewrite bool_decide_true in H6 by by eapply elem_of_dom_2.
      destruct H6 as (o&Ho&_). simplify_eq. eauto.
    - intros u p o Hu Hu'. specialize (H6 u p Hu). rewrite bool_decide_true in H6 by by eapply elem_of_dom_2.
      destruct H6 as (o'&Ho&Hr). destruct (H5 u false _ Hu') as (_&Hs&Hag&_). rewrite Ho in Hu'. by injection Hu' as ->.
  Qed.
End Sim.

(** ** Stages: the objects of a process pass from thread to thread *)
Section Stages.
  Context {K A R V L O : Type}.
  Context (P : Core.policy K A R V) (eqv : K → K → bool) (good : R → Prop).
  Context (Heq : equivalence eqv) (HP : policy_ok eqv good P).
  Context `{EqDecision L} (lab : R → L).
  Context (Hkey : ∀ r r', eqv (p_key P r) (p_key P r') = bool_decide (lab r = lab r') && bool_decide (p_kids P r = p_kids P r')).
  Context (makes : A → nat → L → Prop).
  Context (Hmakes : ∀ a ks l, makes a (length ks) l → ∃ r, p_make P a ks = Some r ∧ p_kids P r = ks ∧ lab r = l).
  Context (fine : O → bool).
  Context (Own : var → Prop) (sure : Prop).
  (** whether the same process would also be safe without locking does not
      matter here *)
  Context (cfg : Core.config) (t0 : tid).
  Notation state := (state (K:=K) (A:=A) (R:=R)).
  Notation reachable := (reachable P eqv).
  Notation cagrees := (cagrees P lab).
  Notation prog := (prog (A:=A) (L:=L) (O:=O)).
  Notation team := (gmap tid (bool * prog)).
  Notation env := (gmap var (tree L)).
  Notation plain own b := (Client.plain (O:=O) own makes b).
  Notation safe own := (safe (O:=O) own makes).
  Notation cfrun := (cfrun P eqv lab fine).
  Notation shares := (shares Own).
  Notation parts := (parts Own).
  Notation ends := (ends makes fine).
  Notation stage := (PropTeam.stage cfg t0 makes fine sure).
  Notation stages_safe := (stages_safe cfg t0 makes fine Own sure).
  Implicit Types (s : state) (ps : team) (M : env) (Ms : tid → env) (own : tid → var → Prop).

  Lemma cagrees_part own ps s M Ms u : shares own ps → parts own M Ms → cagrees Own s M → cagrees (own u) s (Ms u).
  Proof using. intros (_&H1&_) (Hp&Hp'&_) [H2 _]. split; [|apply Hp']. intros x Hx. rewrite (Hp u x Hx). by apply H2, (H1 u). Qed.
  Lemma cagrees_whole own ps s M Ms : shares own ps → parts own M Ms → (∀ u, is_Some (ps !! u) → cagrees (own u) s (Ms u)) → cagrees Own s M.
  Proof using.
    intros (_&H1&H2) (Hp&_&Hp') Ha. split; [|apply Hp']. intros x Hx. destruct (H2 x Hx) as [u Hu]. rewrite <- (Hp u x Hu).
    by apply Ha; [apply (H1 u x)|].
  Qed.
  Lemma coutsider_stranger own ps (l : ctlab (A:=A)) : shares own ps → coutsider Own (CFTeam l) → cstranger own l.
  Proof using. intros (_&H1&_). destruct l as [l|]; [|done]. intros Ho u _ x Hx. by apply Ho, (H1 u). Qed.

  Definition cfsim (c : state * team * list team) Q : Prop :=
    let '(s, ps, rest) := c in Forall con_team rest ∧
    ∃ own Ms0 ps0 Ms, shares own ps0 ∧ stage own Ms0 ps0 ∧ dom ps = dom ps0 ∧
      (∀ M' Ms', parts own M' Ms' → ends own Ms0 ps0 Ms' → match rest with [] => Q M' | ps' :: rest' => dom ps' = dom ps0 ∧ stages_safe M' ps' rest' Q end) ∧
      ctsim P eqv lab own makes (s, ps) Ms ∧
      ∀ (u : tid) w p w' p', ps0 !! u = Some (w, p) → ps !! u = Some (w', p') → rtc (plain (own u) true) (p, Ms0 u) (p', Ms u).
  Lemma cfsim_start s M ps rest Q : reachable s → con_team ps → Forall con_team rest → (∀ u, is_Some (ps !! u) → stack s u = []) → cagrees Own s M → stages_safe M ps rest Q → cfsim (s, ps, rest) Q.
  Proof.
    intros Hre Hct Hcr Hst Hag Hs. split; [done|]. assert (∃ own Ms, shares own ps ∧ parts own M Ms ∧ stage own Ms ps ∧
      ∀ M' Ms', parts own M' Ms' → ends own Ms ps Ms' → match rest with [] => Q M' | ps' :: rest' => dom ps' = dom ps ∧ stages_safe M' ps' rest' Q end) as (own&Ms&H1&H2&H3&H4) by (by destruct rest).
    exists own, Ms, ps, Ms. split; [done|]. split; [done|]. split; [done|]. split; [done|]. split.
    - apply cready_ctsim. split; [done|]. split; [done|]. intros u w p Hu. destruct (H3 u w p Hu) as (->&Ht&Hsafe&_). split; [done|]. split; [by apply Hst|]. split; [|done].
      by eapply cagrees_part.
    - intros; simplify_eq; done.
  Qed.
  (** all threads are done *)
  Lemma cfsim_join s ps rest Q : cfsim (s, ps, rest) Q → all_fine fine ps = true → (∀ u, is_Some (ps !! u) → stack s u = []) ∧
    ∃ M, cagrees Own s M ∧ match rest with [] => Q M | ps' :: rest' => dom ps' = dom ps ∧ stages_safe M ps' rest' Q end.
  Proof.
    intros (_&own&Ms0&ps0&Ms&H1&H2&Hd&H3&[Hre H4]&H5) Hf. rewrite all_fine_spec in Hf. cbn [fst snd] in *.
    assert (Hst : ∀ u, is_Some (ps !! u) → stack s u = [] ∧ cagrees (own u) s (Ms u)).
    { intros u [c Hc]. destruct (Hf u c Hc) as (o&->&_). destruct (H4 u false (Ret o) Hc) as (_&[_ ?]&_). done. }
    split; [intros u Hu; by apply Hst|].
    assert (Hdm : ∀ u, is_Some (ps0 !! u) ↔ is_Some (ps !! u)) by (intros u; by rewrite <- !elem_of_dom, Hd).
    set (Ms' u := if decide (is_Some (ps0 !! u)) then Ms u else ∅).
    assert (HMs : ∀ u, is_Some (ps0 !! u) → Ms' u = Ms u) by (intros u Hu; unfold Ms'; by destruct (decide (is_Some (ps0 !! u)))).
    destruct (parts_exist Own own ps0 Ms' H1) as [M HM].
    { intros u x. unfold Ms'. destruct (decide (is_Some (ps0 !! u))) as [Hu|]; [|rewrite lookup_empty; by intros [? ?]]. intros Hx. by apply (Hst u) in Hx; [|apply Hdm]. }
    exists M. split.
    - eapply cagrees_whole; [done|done|]. intros u Hu. rewrite (HMs u Hu). by apply Hst, Hdm.
    - rewrite Hd. apply (H3 M Ms' HM). intros u p Hp. assert (is_Some (ps !! u)) as [c Hc] by (apply Hdm; eauto).
      destruct (Hf u c Hc) as (o&->&Ho). exists o. split; [done|]. rewrite HMs by eauto. by eapply H5.
  Qed.
  Lemma cfsim_step c Q l : cfsim c Q → coutsider Own l → ∃ c', cfstep P eqv lab fine c l = Some c' ∧ cfsim c' Q ∧ dom c'.1.2 = dom c.1.2 ∧
    reachable c'.1.1 ∧ ∃ pre, c.2 = pre ++ c'.2.
  Proof.
    destruct c as [[s ps] rest]. intros Hsim Ho. pose proof Hsim as (Hcr&own&Ms0&ps0&Ms&H1&H2&Hd&H3&Ht&H5). destruct l as [l|]; cbn [cfstep].
    - destruct (ctsim_step P eqv good Heq HP lab Hkey own makes Hmakes (proj1 H1) (s, ps) Ms l Ht) as ([s' ps']&Ms'&T1&T2&T3&T4&_);
        [by eapply coutsider_stranger|].
      rewrite T1. exists (s', ps', rest). split; [done|]. cbn [fst snd] in *. split; [|split; [done|split; [by destruct T2|by exists []]]].
      split; [done|]. exists own, Ms0, ps0, Ms'. split; [done|]. split; [done|]. split; [congruence|]. split; [done|]. split; [done|].
      intros u w p w' p' Hu Hu'. assert (is_Some (ps !! u)) as [[w1 p1] Hp1] by (apply elem_of_dom; rewrite Hd; by eapply elem_of_dom_2).
      etrans; [by eapply H5|by eapply T4].
    - assert (Hre : reachable s) by apply Ht. destruct rest as [|ps' rest']; [exists (s, ps, []); split_and!; try done; by exists []|].
      destruct (all_fine fine ps) eqn:Ef; [|exists (s, ps, ps' :: rest'); split_and!; try done; by exists []].
      destruct (cfsim_join s ps (ps' :: rest') Q Hsim Ef) as (Hst&M&Hag&Hd'&Hs'). exists (s, ps', rest'). split; [done|]. apply Forall_cons in Hcr as [Hc' Hcr].
      split; [|split; [done|split; [done|by exists [ps']]]]. eapply cfsim_start; [done|done|done| |done|done].
      intros u Hu. apply Hst. apply elem_of_dom. rewrite <- Hd'. by apply elem_of_dom.
  Qed.
  Lemma cfsim_run ls : ∀ c Q, cfsim c Q → Forall (coutsider Own) ls → ∃ c', cfrun c ls = Some c' ∧ cfsim c' Q ∧ dom c'.1.2 = dom c.1.2 ∧
    (reachable c.1.1 → reachable c'.1.1) ∧ ∃ pre, c.2 = pre ++ c'.2.
  Proof.
    induction ls as [|l ls IH]; intros c Q Hs Ho; [exists c; split_and!; try done; by exists []|].
    apply Forall_cons in Ho as [Hl Ho]. destruct (cfsim_step c Q l Hs Hl) as (c1&E1&Hs1&D1&R1&pre1&P1). cbn [ConTeam.cfrun]. rewrite E1.
    destruct (IH c1 Q Hs1 Ho) as (c2&E2&Hs2&D2&R2&pre2&P2). exists c2. split; [done|]. split; [done|]. split; [congruence|]. split; [auto|].
    exists (pre1 ++ pre2). by rewrite <- app_assoc, <- P2.
  Qed.

  Theorem C74_stages s M ps rest Q ls :
    reachable s → con_team ps → Forall con_team rest → (∀ u, is_Some (ps !! u) → stack s u = []) → cagrees Own s M → stages_safe M ps rest Q → Forall (coutsider Own) ls →
    ∃ s' ps' rest', cfrun (s, ps, rest) ls = Some (s', ps', rest') ∧ reachable s' ∧ dom ps' = dom ps ∧ (∃ pre, rest = pre ++ rest') ∧
      (rest' = [] → all_fine fine ps' = true → (∀ u, is_Some (ps' !! u) → stack s' u = []) ∧ ∃ M', cagrees Own s' M' ∧ Q M').
  Proof.
    intros Hre Hct Hcr Hst Hag Hs Ho. destruct (cfsim_run ls (s, ps, rest) Q) as ([[s' ps'] rest']&E&Hsim&Hd&Hr&Hpre); [by eapply cfsim_start|done|].
    exists s', ps', rest'. split; [done|]. split; [by apply Hr|]. split; [done|]. split; [done|]. intros -> Hf. apply (cfsim_join s' ps' [] Q Hsim Hf).
  Qed.
  Lemma cfrun_app (c : state * team * list team) ls ls' : cfrun c (ls ++ ls') = match cfrun c ls with Some c' => cfrun c' ls' | None => None end.
  Proof. revert c. induction ls as [|l ls IH]; intros c; [done|]. cbn [app ConTeam.cfrun]. by destruct (cfstep P eqv lab fine c l). Qed.
  Lemma cfrun_ctrun ls : ∀ s ps s' ps' rest, ctrun P eqv lab (s, ps) ls = Some (s', ps') → cfrun (s, ps, rest) (CFTeam <$> ls) = Some (s', ps', rest).
  Proof.
    induction ls as [|l ls IH]; intros s ps s' ps' rest; cbn [ConTeam.ctrun fmap list_fmap ConTeam.cfrun cfstep]; [by intros [= -> ->]|].
    destruct (ctstep P eqv lab (s, ps) l) as [[s1 ps1]|]; [|done]. apply IH.
  Qed.
  Definition cpeaceful (l : cflab (A:=A)) : Prop := match l with CFTeam l => ccalm l | CFJoin => True end.
  Lemma cpeaceful_outsider l : cpeaceful l → coutsider Own l.
  Proof. by destruct l as [[[| | | |]|]|]. Qed.
  Theorem C74_stages_complete rest : sure → ∀ s M ps Q,
    reachable s → con_team ps → Forall con_team rest → (∀ u, is_Some (ps !! u) → stack s u = []) → cagrees Own s M → stages_safe M ps rest Q →
    ∃ ls s' ps' M', Forall cpeaceful ls ∧ cfrun (s, ps, rest) ls = Some (s', ps', []) ∧ all_fine fine ps' = true ∧
      reachable s' ∧ (∀ u, is_Some (ps' !! u) → stack s' u = []) ∧ cagrees Own s' M' ∧ Q M'.
  Proof.
    intros Hsure. induction rest as [|ps2 rest IH]; intros s M ps Q Hre Hct Hcr Hst Hag Hs; cbn [PropTeam.stages_safe] in Hs; destruct Hs as (own&Ms&H1&H2&H3&H4).
    all: assert (Hrd : cready P eqv lab own makes s ps Ms)
      by (split; [done|]; split; [done|]; intros u w p Hu; destruct (H3 u w p Hu) as (->&?&?&_); split; [done|]; split; [by apply Hst; eauto|]; split; [by eapply cagrees_part|done]).
    all: destruct (C74_completes P eqv good Heq HP lab Hkey own makes Hmakes (proj1 H1) s ps Ms Hrd) as (ls&s'&ps'&Ms'&E1&E3&Hre'&Hd&Hfin&E4).
    all: assert (Hdm : ∀ u, is_Some (ps !! u) ↔ is_Some (ps' !! u)) by (intros u; by rewrite <- !elem_of_dom, Hd).
    all: assert (Hend : ∀ (u : tid) p, ps !! u = Some (false, p) → ∃ o, ps' !! u = Some (false, Ret o) ∧ fine o = true ∧ stack s' u = [] ∧ rtc (plain (own u) false) (p, Ms u) (Ret o, Ms' u) ∧ cagrees (own u) s' (Ms' u)).
    1,3: intros u p Hu; assert (is_Some (ps' !! u)) as [[w' p'] Hu'] by (apply Hdm; eauto); destruct (Hfin u w' p' Hu') as (->&o&->);
         destruct (E4 u p o Hu Hu') as (Hsu&Hr&Hagu); exists o; split; [done|]; split; [by eapply H3|]; done.
    all: assert (Hfine : all_fine fine ps' = true).
    1,3: apply all_fine_spec; intros u c Hc; assert (is_Some (ps !! u)) as [[w p] Hu] by (apply Hdm; eauto); destruct (H3 u w p Hu) as (->&_);
         destruct (Hend u p Hu) as (o&Ho&Hf&_); exists o; split; [congruence|done].
    all: assert (Hst' : ∀ u, is_Some (ps' !! u) → stack s' u = []) by (intros u [[w p] Hu]%Hdm; destruct (H3 u w p Hu) as (->&_); by destruct (Hend u p Hu) as (o&_&_&?&_)).
    all: set (Ms2 u := if decide (is_Some (ps !! u)) then Ms' u else ∅).
    all: assert (HMs : ∀ u, is_Some (ps !! u) → Ms2 u = Ms' u) by (intros u Hu; unfold Ms2; by destruct (decide (is_Some (ps !! u)))).
    all: assert (Hag' : ∀ u, is_Some (ps !! u) → cagrees (own u) s' (Ms' u)) by (intros u [[w p] Hu]; destruct (H3 u w p Hu) as (->&_); by destruct (Hend u p Hu) as (o&_&_&_&_&?)).
    all: destruct (parts_exist Own own ps Ms2 H1) as [M' HM'].
    1,3: intros u x; unfold Ms2; destruct (decide (is_Some (ps !! u))) as [Hu|]; [|rewrite lookup_empty; by intros [? ?]]; intros Hx; by apply (Hag' u Hu).
    all: assert (Hends : ends own Ms ps Ms2).
    1,3: intros u p Hu; destruct (Hend u p Hu) as (o&_&Hf&_&Hr&_); exists o; split; [done|]; rewrite HMs by eauto;
         eapply rtc_subrel; [|exact Hr]; intros c c' Hp; inversion Hp; subst; by econstructor.
    all: specialize (H4 M' Ms2 HM' Hends).
    all: assert (HagM : cagrees Own s' M') by (eapply cagrees_whole; [done|done|]; intros u Hu; rewrite (HMs u Hu); by apply Hag').
    all: assert (Hc1 : Forall cpeaceful (CFTeam <$> ls)) by (by apply Forall_fmap).
    - exists (CFTeam <$> ls), s', ps', M'. split_and!; try done. by apply cfrun_ctrun.
    - destruct H4 as [Hd2 H4]. apply Forall_cons in Hcr as [Hc2 Hcr]. destruct (IH s' M' ps2 Q) as (ls2&s2&ps3&M2&F1&F3&F4&F5&F6&F7&F8); [done|done|done| |done|done|].
      { intros u Hu. apply Hst', Hdm, elem_of_dom. rewrite <- Hd2. by apply elem_of_dom. }
      exists ((CFTeam <$> ls) ++ CFJoin :: ls2), s2, ps3, M2. split; [by apply Forall_app_2; [|constructor]|].
      split; [|done]. rewrite cfrun_app, (cfrun_ctrun _ _ _ _ _ _ E3). cbn [ConTeam.cfrun cfstep]. by rewrite Hfine.
  Qed.
End Stages.

(** ** Example: two threads make the same list, each with objects of its own, and
    thread 3 makes one of the elements and destroys it while the collector passes *)
From Verif Require PropStruct PropClient.
Import PropStruct PropClient.
From Verif Require Import PropTeam ConTeam ConClient Concurrent PropConClient.
Definition cround (n : nat) : list (ctlab (A:=option nat)) := concat (replicate n [CTGo 1; CTGo 2; CTEnv (LRun 1 false); CTEnv (LRun 2 false); CTEnv (LRun 3 false)]).
Definition ccrowd : list (ctlab (A:=option nat)) :=
  [CTEnv (LStart 3 (ONew 31 (Some 2) []))] ++ concat (replicate 20 (cround 1 ++ map CTEnv (tidy 1))) ++ [CTEnv (LStart 3 (ODestroy 31))] ++ cround 60.
Lemma pteam_inv (u : tid) w p : pteam !! u = Some (w, p) → w = false ∧ p = pairs u ∧ (u = 1 ∨ u = 2).
Proof.
  intros Hu. destruct (decide (u = 1)) as [->|]; [rewrite lookup_insert in Hu; simplify_eq; auto|]. rewrite lookup_insert_ne in Hu by done.
  destruct (decide (u = 2)) as [->|]; [rewrite lookup_insert in Hu; simplify_eq; auto|]. by rewrite lookup_insert_ne in Hu by done.
Qed.
Lemma pairs_flat u : flat (pairs u).
Proof. unfold pairs. cbn. repeat (intros ?; try match goal with b : bool |- _ => destruct b end; cbn); done. Qed.
Example C74_at_work : let c := ctrun cP ceq fst (init, pteam) ccrowd in
  cready cP ceq fst tens cmakes (init (R:=ckey)) pteam (λ _, ∅) ∧ Forall (cstranger tens) ccrowd ∧
  match c with
  | Some (s, ps) => ps !! 1 = Some (false, Ret (Some (Some 1, true))) ∧ ps !! 2 = Some (false, Ret (Some (Some 2, true))) ∧ size (ents s) = 4 ∧
      live s 11 = live s 12 ∧ live s 11 = live s 21 ∧ bool_decide (is_Some (live s 11)) = true ∧ bool_decide (live s 13 = live s 23) = false ∧ vars s !! 31 = None
  | None => False
  end.
Proof.
  split.
  { split; [by exists []|]. split; [intros u w p (_&->&[->| ->])%pteam_inv; split; [done|apply pairs_flat|done|apply pairs_flat]|].
    intros u w p (->&->&_)%pteam_inv. split; [done|]. split; [done|]. split; [split; [done|intros x [? Hx]; by rewrite lookup_empty in Hx]|].
    eapply wp_safe; [exact cmakes_fun|exact (pairs_wp u true)]. }
  split.
  { apply Forall_forall. intros l Hl. assert (Hb : forallb (λ l : ctlab (A:=option nat), match l with CTEnv (LStart 3 (ONew 31 _ _)) | CTEnv (LStart 3 (ODestroy 31)) => true | CTEnv (LStart _ _) => false | _ => true end) ccrowd = true) by (vm_compute; reflexivity).
    rewrite forallb_forall in Hb. apply elem_of_list_In in Hl. specialize (Hb l Hl). destruct l as [[u o|u c| |h|]|]; try done. intros v Hv x Hx. unfold tens in Hx.
    assert (u = 3) as -> by (by repeat case_match). simpl in Hv. apply bool_decide_eq_false in Hv. assert (x ≠ 31) by lia. destruct o; try done; repeat (case_match; try done); simpl; apply bool_decide_eq_false; lia. }
  vm_compute. split_and!; reflexivity.
Qed.

Print Assumptions C74_team.
Print Assumptions C74_completes.
Print Assumptions C74_stages.
Print Assumptions C74_stages_complete.
