(** C68: programs that run in several threads at the same time, each with its own
    objects, behave as they would alone and with plain values. *)
From Verif Require Import SerializeProofs CoreRace Instances PropInner Client PropClient.
From Verif Require Export Team.

Section Spec.
  Context {A : Type} (own : tid → var → Prop).
  (** threads without a program use other objects *)
  Definition stranger (l : tlab (A:=A)) : Prop :=
    match l with TEnv l => ∀ u, label_tid l ≠ u → ∀ x, own u x → writes x l = false | TGo _ => True end.
  Definition in_time (cfg : config) (t0 : tid) (l : tlab (A:=A)) : Prop :=
    match l with TEnv l => lck cfg = false → label_tid l = t0 | TGo _ => True end.
End Spec.

Section Sim.
  Context {K A R V L O : Type}.
  Context (P : policy K A R V) (FS : factory K) (cfg : config).
  Context (eqv : K → K → bool) (good : R → Prop).
  Context (Heq : equivalence eqv) (HP : policy_ok eqv good P) (HF : factory_spec eqv FS).
  Context (t0 : tid).
  Context `{EqDecision L} (lab : R → L).
  Context (Hkey : ∀ r r', eqv (p_key P r) (p_key P r') = bool_decide (lab r = lab r') && bool_decide (p_kids P r = p_kids P r')).
  Context (own : tid → var → Prop) (makes : A → nat → L → Prop).
  Context (Hmakes : ∀ a ks l, makes a (length ks) l → ∃ r, p_make P a ks = Some r ∧ p_kids P r = ks ∧ lab r = l).
  (** no object belongs to two threads *)
  Context (Hown : ∀ u v x, own u x → own v x → u = v).

  Notation state := (state (R:=R) (K:=K) (A:=A) FS).
  Notation reachable := (reachable P FS cfg t0).
  Notation agrees u := (agrees P FS lab (own u)).
  Notation prog := (prog (A:=A) (L:=L) (O:=O)).
  Notation team := (gmap tid (bool * prog)).
  Notation plain u b := (Client.plain (O:=O) (own u) makes b).
  Notation safe u := (safe (O:=O) (own u) makes).
  Notation sim u := (sim (O:=O) P FS cfg eqv t0 lab (own u) makes u).
  Notation tstep := (tstep P FS cfg lab).
  Notation trun := (trun P FS cfg lab).
  Notation env := (gmap var (tree L)).
  Implicit Types (s : state) (ps : team) (Ms : tid → env).

  Definition tsim (c : state * team) Ms : Prop :=
    reachable c.1 ∧ ∀ u w p, c.2 !! u = Some (w, p) → allowed cfg t0 u ∧ sim u (c.1, w, p) (Ms u) ∧ safe u p (Ms u).

  (** a call writes only to objects of its program *)
  Lemma plain_writes u (t : tid) o k (M : env) c x : (∀ y, is_Some (M !! y) → own u y) → plain u true (Call o k, M) c → writes x (LStart t o) = true → own u x.
  Proof.
    intros HM Hp. inversion Hp; subst; simpl; try done; intros Hx;
      try (apply bool_decide_eq_true in Hx; subst; first [done|apply HM; eauto]).
    apply orb_true_iff in Hx as [Hx%bool_decide_eq_true|Hx%bool_decide_eq_true]; subst; apply HM; eauto.
  Qed.
  Lemma sim_owns u s p M : sim u (s, false, p) M → ∀ y, is_Some (M !! y) → own u y.
  Proof. intros [_ [_ [_ H]]]. exact H. Qed.

  Lemma tsim_step c Ms l : tsim c Ms → stranger own l → in_time cfg t0 l →
    ∃ c' Ms', tstep c l = Some c' ∧ tsim c' Ms' ∧ dom c'.2 = dom c.2 ∧
      (∀ u w p w' p', c.2 !! u = Some (w, p) → c'.2 !! u = Some (w', p') → rtc (plain u true) (p, Ms u) (p', Ms' u)) ∧
      ∀ u, l ≠ TGo u → Ms' u = Ms u ∧ c'.2 !! u = c.2 !! u.
  Proof.
    destruct c as [s ps]. intros [Hre Hps] Hf Hon. cbn [fst snd] in *.
    assert (Hsame : ∀ Ms u w p w' p', ps !! u = Some (w, p) → ps !! u = Some (w', p') → rtc (plain u true) (p, Ms u) (p', Ms u)) by (intros; simplify_eq; done).
    destruct l as [l|u].
    - cbn [Team.tstep]. destruct (match l with LStart u _ => bool_decide (is_Some (ps !! u)) | LRun _ _ => false end) eqn:Est.
      { exists (s, ps), Ms. split; [done|]. split; [done|]. split; [done|]. split; [apply Hsame|done]. }
      pose proof (reach_inv P FS cfg eqv good Heq HP HF t0 s Hre) as HI.
      pose proof (step_ok P FS cfg eqv good Heq HP HF t0 s l HI Hon) as Hok. unfold res_ok in Hok.
      destruct (step P FS cfg s l) as [s'| |] eqn:E; [| |done].
      2: { exists (s, ps), Ms. split; [done|]. split; [done|]. split; [done|]. split; [apply Hsame|done]. }
      exists (s', ps), Ms. split; [done|]. split; [|split; [done|split; [apply Hsame|done]]].
      split; [by eapply (reach_step P FS cfg t0 s l)|]. cbn [fst snd]. intros u w p Hu. destruct (Hps u w p Hu) as (Hal&Hsim&Hsafe). split; [done|]. split; [|done].
      eapply (sim_env P FS cfg eqv good Heq HP HF t0 lab (own u) makes u s w p l (Ms u) s' Hsim Hon); [| |done].
      + destruct l as [v o|v c]; [|done]. simpl. apply bool_decide_eq_false. intros <-. rewrite Hu in Est. apply bool_decide_eq_false in Est. destruct Est. eauto.
      + intros Hne x Hx. by eapply Hf.
    - cbn [Team.tstep]. destruct (ps !! u) as [[w p]|] eqn:Hu.
      2: { exists (s, ps), Ms. split; [done|]. split; [done|]. split; [done|]. split; [apply Hsame|done]. }
      destruct (Hps u w p Hu) as (Hal&Hsim&Hsafe).
      destruct (sim_step P FS cfg eqv good Heq HP HF t0 lab Hkey (own u) makes Hmakes u Hal (s, w, p) (Ms u) Go Hsim Hsafe I I) as ([[s' w'] p']&M'&Hgo&Hsim'&Hr).
      cbn [pstep] in Hgo. rewrite Hgo. cbn [snd] in *. exists (s', <[u:=(w', p')]> ps), (λ v, if decide (v = u) then M' else Ms v). split; [done|]. split.
      + split; [by destruct Hsim' as [? _]|]. cbn [fst snd]. intros v w1 p1 Hv. destruct (decide (v = u)) as [->|Hne].
        { rewrite lookup_insert in Hv. injection Hv as <- <-. split; [done|]. split; [done|]. by eapply safe_plain. }
        rewrite lookup_insert_ne in Hv by done. destruct (Hps v w1 p1 Hv) as (Hal1&Hsim1&Hsafe1). split; [done|]. split; [|done].
        (* what the others see *)
        assert (Hcase : s' = s ∨ ∃ o k, w = false ∧ p = Call o k ∧ step P FS cfg s (LStart u o) = Next s').
        { clear -Hgo. destruct p as [o|o k|x path k|x path y path' k]; cbn [pgo] in Hgo; [left; congruence| |repeat case_match; simplify_eq; by left..].
          destruct w; [repeat case_match; simplify_eq; by left|]. destruct (step P FS cfg s (LStart u o)) as [s1| |] eqn:E; simplify_eq. right. by exists o, k. }
        destruct Hcase as [->|(o&k&->&->&Hs)]; [done|].
        destruct (Hsafe _ _ (rtc_refl _ _)) as [[? ?]|[c Hc]]; [done|].
        eapply (sim_env P FS cfg eqv good Heq HP HF t0 lab (own v) makes v s w1 p1 (LStart u o) (Ms v) s' Hsim1 Hal); [| |done].
        * simpl. by apply bool_decide_eq_false.
        * intros _ x Hx. destruct (writes x (LStart u o)) eqn:Hw; [|done]. destruct Hne. apply (Hown _ _ x Hx).
          eapply plain_writes; [by eapply sim_owns|done|done].
      + cbn [fst snd]. split.
        { rewrite dom_insert_L. apply elem_of_dom_2 in Hu. set_solver. }
        split.
        2: { intros v Hv. assert (v ≠ u) by congruence. rewrite lookup_insert_ne by done. destruct (decide (v = u)); done. }
        intros v w1 p1 w2 p2 Hv Hv'. destruct (decide (v = u)) as [->|Hne].
        * rewrite lookup_insert in Hv'. simplify_eq. destruct (decide (u = u)); done.
        * rewrite lookup_insert_ne in Hv' by done. simplify_eq. destruct (decide (v = u)); done.
  Qed.
  Lemma tsim_run ls : ∀ c Ms, tsim c Ms → Forall (stranger own) ls → Forall (in_time cfg t0) ls →
    ∃ c' Ms', trun c ls = Some c' ∧ tsim c' Ms' ∧ dom c'.2 = dom c.2 ∧
      (∀ u w p w' p', c.2 !! u = Some (w, p) → c'.2 !! u = Some (w', p') → rtc (plain u true) (p, Ms u) (p', Ms' u)) ∧
      ∀ u, TGo u ∉ ls → Ms' u = Ms u ∧ c'.2 !! u = c.2 !! u.
  Proof.
    induction ls as [|l ls IH]; intros c Ms Hs Hf Hon.
    { exists c, Ms. split; [done|]. split; [done|]. split; [done|]. split; [|done]. intros; simplify_eq; done. }
    apply Forall_cons in Hf as [Hl Hf], Hon as [Hl' Hon].
    destruct (tsim_step c Ms l Hs Hl Hl') as (c1&M1&Hp&Hs1&Hd1&Hr1&Hk1). cbn [Team.trun]. rewrite Hp.
    destruct (IH c1 M1 Hs1 Hf Hon) as (c2&M2&H2&Hs2&Hd2&Hr2&Hk2). exists c2, M2. split; [done|]. split; [done|]. split; [congruence|]. split.
    2: { intros u Hu. apply not_elem_of_cons in Hu as [Hu1 Hu2]. destruct (Hk1 u) as [<- <-]; [congruence|]. by apply Hk2. }
    intros u w p w' p' Hu Hu'. assert (is_Some (c1.2 !! u)) as [[w1 p1] H1] by (apply elem_of_dom; rewrite Hd1; by eapply elem_of_dom_2).
    etrans; [by eapply Hr1|by eapply Hr2].
  Qed.

  (** ** C68 *)
  Definition ready s ps Ms : Prop :=
    reachable s ∧ ∀ u w p, ps !! u = Some (w, p) → w = false ∧ (lck cfg = false → u = t0) ∧ stack s u = [] ∧ agrees u s (Ms u) ∧ safe u p (Ms u).
  Lemma ready_tsim s ps Ms : ready s ps Ms → tsim (s, ps) Ms.
  Proof. intros [Hre H]. split; [done|]. intros u w p Hu. destruct (H u w p Hu) as (->&?&?&?&?). split; [done|]. split; [|done]. done. Qed.

  Theorem C68_team s ps Ms ls : ready s ps Ms → Forall (stranger own) ls → Forall (in_time cfg t0) ls →
    ∃ s' ps' Ms', trun (s, ps) ls = Some (s', ps') ∧ reachable s' ∧ dom ps' = dom ps ∧
      ∀ (u : tid) p (w : bool) p', ps !! u = Some (false, p) → ps' !! u = Some (w, p') → rtc (plain u true) (p, Ms u) (p', Ms' u) ∧
        (if w then ∃ o k, p' = Call o k else stack s' u = [] ∧ agrees u s' (Ms' u)).
  Proof.
    intros Hr Hf Hon. destruct (tsim_run ls (s, ps) Ms) as ([s' ps']&Ms'&H1&[Hre' H2]&H3&H4&_); [by apply ready_tsim|done|done|].
    exists s', ps', Ms'. split; [done|]. split; [done|]. split; [done|]. intros u p w p' Hu Hu'. split; [by eapply H4|].
    destruct (H2 u w p' Hu') as (_&[_ Hw]&_). destruct w; [|done]. destruct Hw as (o&k&->&_). eauto.
  Qed.

  (** they can all be brought to their ends *)
  Lemma trun_app (c : state * team) ls ls' : trun c (ls ++ ls') = match trun c ls with Some c' => trun c' ls' | None => None end.
  Proof. revert c. induction ls as [|l ls IH]; intros c; [done|]. cbn [app Team.trun]. by destruct (tstep c l). Qed.
  Definition lift (u : tid) (l : clab (A:=A)) : tlab (A:=A) := match l with Env l => TEnv l | Go => TGo u end.
  Lemma trun_prun u ls : ∀ s w (p : prog) s' w' p' ps, Forall quiet ls → ps !! u = Some (w, p) →
    prun P FS cfg lab u (s, w, p) ls = Some (s', w', p') → trun (s, ps) (lift u <$> ls) = Some (s', <[u:=(w', p')]> ps).
  Proof.
    induction ls as [|l ls IH]; intros s w p s' w' p' ps Hq Hu; cbn [Client.prun fmap list_fmap Team.trun].
    { intros [= -> -> ->]. by rewrite insert_id. }
    apply Forall_cons in Hq as [Hl Hq]. destruct (pstep P FS cfg lab u (s, w, p) l) as [[[s1 w1] p1]|] eqn:E; [|done]. intros Hr.
    destruct l as [[v o|v c]|]; [done| |]; cbn [lift Team.tstep pstep starts] in *.
    - destruct (step P FS cfg s (LRun v c)) as [s2| |]; simplify_eq; by eapply IH.
    - rewrite Hu, E. replace (<[u:=(w', p')]> ps) with (<[u:=(w', p')]> (<[u:=(w1, p1)]> ps)) by apply insert_insert.
      eapply IH; [done|by rewrite lookup_insert|done].
  Qed.
  Lemma trun_env ls : ∀ s s' ps, Forall is_run ls → Core.run P FS cfg s ls = Next s' → trun (s, ps) (TEnv <$> ls) = Some (s', ps).
  Proof.
    induction ls as [|l ls IH]; intros s s' ps Hr; cbn [Core.run]; [by intros [= ->]|]. apply Forall_cons in Hr as [Hl Hr]. intros Hs.
    cbn [fmap list_fmap Team.trun Team.tstep]. destruct l as [u o|u c]; [done|].
    destruct (step P FS cfg s (LRun u c)) as [s1| |]; [|by apply IH|done]. by apply IH.
  Qed.
  Definition finished ps : Prop := ∀ (u : tid) w p, ps !! u = Some (w, p) → w = false ∧ ∃ o, p = Ret o.
  Definition calm (l : tlab (A:=A)) : Prop := match l with TEnv l => is_run l | TGo _ => True end.
  Theorem C68_completes s ps Ms : ready s ps Ms →
    ∃ ls s' ps' Ms', Forall calm ls ∧ Forall (in_time cfg t0) ls ∧ trun (s, ps) ls = Some (s', ps') ∧ reachable s' ∧ dom ps' = dom ps ∧ quiescent s' ∧ finished ps' ∧
      ∀ (u : tid) p o, ps !! u = Some (false, p) → ps' !! u = Some (false, Ret o) → stack s' u = [] ∧ rtc (plain u false) (p, Ms u) (Ret o, Ms' u) ∧ agrees u s' (Ms' u).
  Proof.
    intros Hr0.
    (* one after the other *)
    assert (Hg : ∀ D : gset tid, ∃ ls s' ps' Ms', Forall calm ls ∧ Forall (in_time cfg t0) ls ∧ trun (s, ps) ls = Some (s', ps') ∧ dom ps' = dom ps ∧ quiescent s' ∧ ready s' ps' Ms' ∧
      ∀ (u : tid) p, ps !! u = Some (false, p) → if bool_decide (u ∈ D) then ∃ o, ps' !! u = Some (false, Ret o) ∧ rtc (plain u false) (p, Ms u) (Ret o, Ms' u)
        else ps' !! u = Some (false, p) ∧ Ms' u = Ms u).
    { intros D. induction D as [|u D Hu IH] using set_ind_L.
      { destruct Hr0 as [Hre0 Hr0]. destruct (can_finish P FS cfg eqv good Heq HP HF t0 s) as (ls&s'&H1&H2&H3&H4); [by apply (reach_inv P FS cfg eqv good Heq HP HF t0)|].
        assert (Hst : Forall (stranger own) (TEnv <$> ls)) by (apply Forall_fmap; eapply Forall_impl; [exact H2|]; intros [v o|v c]; done).
        assert (Hin : Forall (in_time cfg t0) (TEnv <$> ls)) by (apply Forall_fmap; eapply Forall_impl; [exact H1|]; done).
        pose proof (trun_env ls s s' ps H2 H3) as Htr.
        destruct (tsim_run (TEnv <$> ls) (s, ps) Ms) as ([s3 ps3]&Ms3&T1&[Hre3 T2]&_&_&T3); [apply ready_tsim; by split|done|done|].
        rewrite Htr in T1. injection T1 as <- <-. cbn [fst snd] in *.
        assert (T3' : ∀ u, Ms3 u = Ms u) by (intros u; apply T3; intros (l&?&_)%elem_of_list_fmap; done).
        exists (TEnv <$> ls), s', ps, Ms. split; [by apply Forall_fmap|]. split; [done|]. split; [done|]. split; [done|]. split; [done|]. split; [|by intros u p Hu].
        split; [done|]. intros u w p Hu. destruct (Hr0 u w p Hu) as (->&Ht&_). destruct (T2 u false p Hu) as (_&[_ Hag]&Hsafe). rewrite T3' in Hag, Hsafe.
        split; [done|]. split; [done|]. destruct Hag. done. }
      destruct IH as (ls&s1&ps1&Ms1&H1&H2&H3&H4&Hq1&Hr1&H5).
      destruct (ps !! u) as [[w0 p]|] eqn:Eu.
      2: { exists ls, s1, ps1, Ms1. split_and!; try done. intros v q Hv. specialize (H5 v q Hv). assert (v ≠ u) by congruence.
           case_bool_decide; case_bool_decide; try set_solver; done. }
      destruct Hr0 as [Hre0 Hr0]. destruct (Hr0 u w0 p Eu) as (->&Ht&_). pose proof (H5 u p Eu) as Hp1. rewrite bool_decide_false in Hp1 by done. destruct Hp1 as [Hp1 HM1].
      destruct Hr1 as [Hre1 Hr1]. destruct (Hr1 u false p Hp1) as (_&_&Hst&Hag&Hsafe).
      destruct (C64_completes P FS cfg eqv good Heq HP HF t0 lab Hkey (own u) makes Hmakes u Ht p s1 (Ms1 u) Hre1 Hst Hag Hsafe)
        as (ls2&s2&o&M2&Q1&Q2&Q3&Q4&Q5&Q6&Q7).
      pose proof (trun_prun u ls2 s1 false p s2 false (Ret o) ps1 Q1 Hp1 Q3) as Htr.
      assert (Hcalm2 : Forall calm (lift u <$> ls2)) by (apply Forall_fmap; eapply Forall_impl; [exact Q1|]; intros [l|]; done).
      assert (Hin2 : Forall (in_time cfg t0) (lift u <$> ls2)) by (apply Forall_fmap; eapply Forall_impl; [exact Q2|]; intros [l|]; done).
      (* the others stay where they are *)
      assert (Hst2 : Forall (stranger own) (lift u <$> ls2)).
      { apply Forall_fmap. eapply Forall_impl; [exact Q1|]. intros [[v o'|v c]|]; done. }
      destruct (tsim_run (lift u <$> ls2) (s1, ps1) Ms1) as ([s3 ps3]&Ms3&T1&[_ T2]&_&_&T3); [apply ready_tsim; by split|done|done|].
      rewrite Htr in T1. injection T1 as <- <-. cbn [fst snd] in T2, T3.
      exists (ls ++ (lift u <$> ls2)), s2, (<[u:=(false, Ret o)]> ps1), (λ v, if decide (v = u) then M2 else Ms1 v).
      split; [by apply Forall_app_2|]. split; [by apply Forall_app_2|]. split; [by rewrite trun_app, H3|].
      split; [rewrite dom_insert_L, H4; apply elem_of_dom_2 in Eu; set_solver|]. split; [done|]. split.
      - split; [done|]. intros v w q Hv. destruct (decide (v = u)) as [->|Hne].
        + rewrite lookup_insert in Hv. injection Hv as <- <-. split; [done|]. split; [done|]. split; [apply Q6|]. split; [done|].
          intros p' M' Hr'. inversion Hr' as [|? ? ? Hst' _]; subst; [left; eauto|]. inversion Hst'.
        + rewrite lookup_insert_ne in Hv by done. destruct (Hr1 v w q Hv) as (->&?&_&Hagv&Hsv). split; [done|]. split; [done|]. split; [apply Q6|]. split; [|done].
          destruct (T3 v) as [HMv _]; [intros [[l|] [[=] _]]%elem_of_list_fmap; congruence|].
          destruct (T2 v false q) as (_&[_ [_ Hag3]]&_); [by rewrite lookup_insert_ne|]. destruct (decide (v = u)); [done|]. by rewrite <- HMv.
      - intros v q Hv. destruct (decide (v = u)) as [->|Hne].
        + rewrite bool_decide_true by set_solver. simplify_eq. exists o. rewrite lookup_insert. split; [done|]. by rewrite <- HM1.
        + specialize (H5 v q Hv). rewrite lookup_insert_ne by done.
          case_bool_decide; case_bool_decide; try set_solver; done. }
    destruct (Hg (dom ps)) as (ls&s'&ps'&Ms'&H1&H2&H3&H4&Hq'&[Hre' H5]&H6). exists ls, s', ps', Ms'. split_and!; try done.
    - intros u w p Hu. assert (is_Some (ps !! u)) as [[w0 p0] Hu0] by (apply elem_of_dom; rewrite <- H4; by eapply elem_of_dom_2).
      destruct Hr0 as [_ Hr0]. destruct (Hr0 u w0 p0 Hu0) as (->&_). specialize (H6 u p0 Hu0). rewrite bool_decide_true in H6 by by eapply elem_of_dom_2.
      destruct H6 as (o&Ho&_). simplify_eq. eauto.
    - intros u p o Hu Hu'. specialize (H6 u p Hu). rewrite bool_decide_true in H6 by by eapply elem_of_dom_2.
      destruct H6 as (o'&Ho&Hr). destruct (H5 u false _ Hu') as (_&_&Hs&Hag&_). rewrite Ho in Hu'. by injection Hu' as ->.
  Qed.
End Sim.

(** ** Stages: the objects of a process pass from thread to thread *)
Section Stages.
  Context {K A R V L O : Type}.
  Context (P : policy K A R V) (FS : factory K) (cfg : config).
  Context (eqv : K → K → bool) (good : R → Prop).
  Context (Heq : equivalence eqv) (HP : policy_ok eqv good P) (HF : factory_spec eqv FS).
  Context (t0 : tid).
  Context `{EqDecision L} (lab : R → L).
  Context (Hkey : ∀ r r', eqv (p_key P r) (p_key P r') = bool_decide (lab r = lab r') && bool_decide (p_kids P r = p_kids P r')).
  Context (makes : A → nat → L → Prop).
  Context (Hmakes : ∀ a ks l, makes a (length ks) l → ∃ r, p_make P a ks = Some r ∧ p_kids P r = ks ∧ lab r = l).
  Context (fine : O → bool).
  (** the objects of the process; whether nothing but an exception of a
      flyweight's constructor can make it fail *)
  Context (Own : var → Prop) (sure : Prop).
  Notation state := (state (R:=R) (K:=K) (A:=A) FS).
  Notation reachable := (reachable P FS cfg t0).
  Notation agrees := (agrees P FS lab).
  Notation prog := (prog (A:=A) (L:=L) (O:=O)).
  Notation team := (gmap tid (bool * prog)).
  Notation env := (gmap var (tree L)).
  Notation plain own b := (Client.plain (O:=O) own makes b).
  Notation safe own := (safe (O:=O) own makes).
  Notation frun := (frun P FS cfg lab fine).
  Implicit Types (s : state) (ps : team) (M : env) (Ms : tid → env) (own : tid → var → Prop).

  (** the memory of the process and that of each of its threads *)
  Definition parts own M Ms : Prop := (∀ u x, own u x → Ms u !! x = M !! x) ∧ (∀ u x, is_Some (Ms u !! x) → own u x) ∧ ∀ x, is_Some (M !! x) → Own x.
  Definition shares own ps : Prop :=
    (∀ u v x, own u x → own v x → u = v) ∧ (∀ u x, own u x → Own x ∧ is_Some (ps !! u)) ∧ ∀ x, Own x → ∃ u, own u x.
  Definition stage own Ms ps : Prop := ∀ (u : tid) w p, ps !! u = Some (w, p) →
    w = false ∧ (lck cfg = false → u = t0) ∧ safe (own u) p (Ms u) ∧ (sure → ∀ o M', rtc (plain (own u) false) (p, Ms u) (Ret o, M') → fine o = true).
  Definition ends own Ms ps Ms' : Prop := ∀ (u : tid) p, ps !! u = Some (false, p) → ∃ o, fine o = true ∧ rtc (plain (own u) true) (p, Ms u) (Ret o, Ms' u).
  Fixpoint stages_safe M ps (rest : list team) (Q : env → Prop) : Prop :=
    ∃ own Ms, shares own ps ∧ parts own M Ms ∧ stage own Ms ps ∧
      ∀ M' Ms', parts own M' Ms' → ends own Ms ps Ms' →
        match rest with [] => Q M' | ps' :: rest' => dom ps' = dom ps ∧ stages_safe M' ps' rest' Q end.
  (** the environment uses other objects, and not the threads of the process *)
  Definition outsider (l : flab (A:=A)) : Prop :=
    match l with FTeam (TEnv l) => ∀ x, Own x → writes x l = false | _ => True end.
  Definition timely (l : flab (A:=A)) : Prop := match l with FTeam l => in_time cfg t0 l | FJoin => True end.

  Lemma agrees_part own ps s M Ms u : shares own ps → parts own M Ms → agrees Own s M → agrees (own u) s (Ms u).
  Proof. intros (_&H1&_) (Hp&Hp'&_) [H2 _]. split; [|apply Hp']. intros x Hx. rewrite (Hp u x Hx). by apply H2, (H1 u). Qed.
  Lemma agrees_whole own ps s M Ms : shares own ps → parts own M Ms → (∀ u, is_Some (ps !! u) → agrees (own u) s (Ms u)) → agrees Own s M.
  Proof.
    intros (_&H1&H2) (Hp&_&Hp') Ha. split; [|apply Hp']. intros x Hx. destruct (H2 x Hx) as [u Hu]. rewrite <- (Hp u x Hu).
    by apply Ha; [apply (H1 u x)|].
  Qed.
  Lemma parts_exist own ps Ms : shares own ps → (∀ u x, is_Some (Ms u !! x) → own u x) → ∃ M, parts own M Ms.
  Proof using.
    intros (H0&H1&H2) Hm. exists (foldr (λ u M, Ms u ∪ M) ∅ (elements (dom ps))).
    assert (Hsome : ∀ us x, is_Some (foldr (λ u M, Ms u ∪ M) (∅ : env) us !! x) → ∃ u, u ∈ us ∧ is_Some (Ms u !! x)).
    { induction us as [|v us IH]; intros x; simpl; [rewrite lookup_empty; by intros [? ?]|]. rewrite lookup_union_is_Some. intros [H|H].
      - exists v. split; [by left|done]. - destruct (IH x H) as (u&?&?). exists u. split; [by right|done]. }
    assert (Hin : ∀ us u x, u ∈ us → own u x → foldr (λ u M, Ms u ∪ M) (∅ : env) us !! x = Ms u !! x).
    { induction us as [|v us IH]; intros u x Hu Hx; [by apply elem_of_nil in Hu|]. cbn [foldr]. destruct (decide (u = v)) as [<-|Hne].
      - destruct (Ms u !! x) as [T|] eqn:E; [by apply lookup_union_Some_l|]. rewrite lookup_union_r by done.
        apply eq_None_not_Some. intros (v&_&Hv)%Hsome. pose proof (Hm _ _ Hv) as Hv'. assert (v = u) as -> by (by eapply H0). rewrite E in Hv. by destruct Hv.
      - rewrite lookup_union_r; [apply IH; [by apply elem_of_cons in Hu as [?|?]|done]|]. apply eq_None_not_Some. intros Hv. apply Hm in Hv. destruct Hne. by eapply H0. }
    split; [|split; [done|]].
    - intros u x Hx. symmetry. apply Hin; [|done]. apply elem_of_elements, elem_of_dom. by apply (H1 u x).
    - intros x (u&_&Hu%Hm)%Hsome. by apply (H1 u).
  Qed.
  Lemma outsider_stranger own ps l : shares own ps → outsider (FTeam l) → stranger own l.
  Proof. intros (_&H1&_). destruct l as [l|]; [|done]. intros Ho u _ x Hx. by apply Ho, (H1 u). Qed.
  Lemma all_fine_spec ps : all_fine fine ps = true ↔ ∀ (u : tid) c, ps !! u = Some c → ∃ o, c = (false, Ret o) ∧ fine o = true.
  Proof.
    unfold all_fine. rewrite forallb_forall. split.
    - intros Ha u c Hc. specialize (Ha (u, c)). simpl in Ha. rewrite <- elem_of_list_In, elem_of_map_to_list in Ha. specialize (Ha Hc).
      destruct c as [[] []]; try done. eauto.
    - intros Ha [u c]. rewrite <- elem_of_list_In, elem_of_map_to_list. intros (o&->&Ho)%Ha. done.
  Qed.

  Definition fsim (c : state * team * list team) Q : Prop :=
    let '(s, ps, rest) := c in
    ∃ own Ms0 ps0 Ms, shares own ps0 ∧ stage own Ms0 ps0 ∧ dom ps = dom ps0 ∧
      (∀ M' Ms', parts own M' Ms' → ends own Ms0 ps0 Ms' → match rest with [] => Q M' | ps' :: rest' => dom ps' = dom ps0 ∧ stages_safe M' ps' rest' Q end) ∧
      tsim P FS cfg eqv t0 lab own makes (s, ps) Ms ∧
      ∀ (u : tid) w p w' p', ps0 !! u = Some (w, p) → ps !! u = Some (w', p') → rtc (plain (own u) true) (p, Ms0 u) (p', Ms u).
  Lemma fsim_start s M ps rest Q : reachable s → (∀ u, is_Some (ps !! u) → stack s u = []) → agrees Own s M → stages_safe M ps rest Q → fsim (s, ps, rest) Q.
  Proof.
    intros Hre Hst Hag Hs. assert (∃ own Ms, shares own ps ∧ parts own M Ms ∧ stage own Ms ps ∧
      ∀ M' Ms', parts own M' Ms' → ends own Ms ps Ms' → match rest with [] => Q M' | ps' :: rest' => dom ps' = dom ps ∧ stages_safe M' ps' rest' Q end) as (own&Ms&H1&H2&H3&H4) by (by destruct rest).
    exists own, Ms, ps, Ms. split; [done|]. split; [done|]. split; [done|]. split; [done|]. split.
    - apply ready_tsim. split; [done|]. intros u w p Hu. destruct (H3 u w p Hu) as (->&Ht&Hsafe&_). split; [done|]. split; [done|]. split; [by apply Hst|]. split; [|done].
      by eapply agrees_part.
    - intros; simplify_eq; done.
  Qed.
  (** all threads are done *)
  Lemma fsim_join s ps rest Q : fsim (s, ps, rest) Q → all_fine fine ps = true → (∀ u, is_Some (ps !! u) → stack s u = []) ∧
    ∃ M, agrees Own s M ∧ match rest with [] => Q M | ps' :: rest' => dom ps' = dom ps ∧ stages_safe M ps' rest' Q end.
  Proof.
    intros (own&Ms0&ps0&Ms&H1&H2&Hd&H3&[Hre H4]&H5) Hf. rewrite all_fine_spec in Hf. cbn [fst snd] in *.
    assert (Hst : ∀ u, is_Some (ps !! u) → stack s u = [] ∧ agrees (own u) s (Ms u)).
    { intros u [c Hc]. destruct (Hf u c Hc) as (o&->&_). destruct (H4 u false (Ret o) Hc) as (_&[_ ?]&_). done. }
    split; [intros u Hu; by apply Hst|].
    assert (Hdm : ∀ u, is_Some (ps0 !! u) ↔ is_Some (ps !! u)) by (intros u; by rewrite <- !elem_of_dom, Hd).
    set (Ms' u := if decide (is_Some (ps0 !! u)) then Ms u else ∅).
    assert (HMs : ∀ u, is_Some (ps0 !! u) → Ms' u = Ms u) by (intros u Hu; unfold Ms'; by destruct (decide (is_Some (ps0 !! u)))).
    destruct (parts_exist own ps0 Ms' H1) as [M HM].
    { intros u x. unfold Ms'. destruct (decide (is_Some (ps0 !! u))) as [Hu|]; [|rewrite lookup_empty; by intros [? ?]]. intros Hx. by apply (Hst u) in Hx; [|apply Hdm]. }
    exists M. split.
    - eapply agrees_whole; [done|done|]. intros u Hu. rewrite (HMs u Hu). by apply Hst, Hdm.
    - rewrite Hd. apply (H3 M Ms' HM). intros u p Hp. assert (is_Some (ps !! u)) as [c Hc] by (apply Hdm; eauto).
      destruct (Hf u c Hc) as (o&->&Ho). exists o. split; [done|]. rewrite HMs by eauto. by eapply H5.
  Qed.
  Lemma fsim_step c Q l : fsim c Q → outsider l → timely l → ∃ c', fstep P FS cfg lab fine c l = Some c' ∧ fsim c' Q ∧ dom c'.1.2 = dom c.1.2 ∧
    reachable c'.1.1 ∧ ∃ pre, c.2 = pre ++ c'.2.
  Proof.
    destruct c as [[s ps] rest]. intros Hsim Ho Hi. pose proof Hsim as (own&Ms0&ps0&Ms&H1&H2&Hd&H3&Ht&H5). destruct l as [l|]; cbn [fstep].
    - destruct (tsim_step P FS cfg eqv good Heq HP HF t0 lab Hkey own makes Hmakes (proj1 H1) (s, ps) Ms l Ht) as ([s' ps']&Ms'&T1&T2&T3&T4&_);
        [by eapply outsider_stranger|done|].
      rewrite T1. exists (s', ps', rest). split; [done|]. cbn [fst snd] in *. split; [|split; [done|split; [by destruct T2|by exists []]]].
      exists own, Ms0, ps0, Ms'. split; [done|]. split; [done|]. split; [congruence|]. split; [done|]. split; [done|].
      intros u w p w' p' Hu Hu'. assert (is_Some (ps !! u)) as [[w1 p1] Hp1] by (apply elem_of_dom; rewrite Hd; by eapply elem_of_dom_2).
      etrans; [by eapply H5|by eapply T4].
    - assert (Hre : reachable s) by apply Ht. destruct rest as [|ps' rest']; [exists (s, ps, []); split_and!; try done; by exists []|].
      destruct (all_fine fine ps) eqn:Ef; [|exists (s, ps, ps' :: rest'); split_and!; try done; by exists []].
      destruct (fsim_join s ps (ps' :: rest') Q Hsim Ef) as (Hst&M&Hag&Hd'&Hs'). exists (s, ps', rest'). split; [done|].
      split; [|split; [done|split; [done|by exists [ps']]]]. eapply fsim_start; [done| |done|done].
      intros u Hu. apply Hst. apply elem_of_dom. rewrite <- Hd'. by apply elem_of_dom.
  Qed.
  Lemma fsim_run ls : ∀ c Q, fsim c Q → Forall outsider ls → Forall timely ls → ∃ c', frun c ls = Some c' ∧ fsim c' Q ∧ dom c'.1.2 = dom c.1.2 ∧
    (reachable c.1.1 → reachable c'.1.1) ∧ ∃ pre, c.2 = pre ++ c'.2.
  Proof.
    induction ls as [|l ls IH]; intros c Q Hs Ho Hi; [exists c; split_and!; try done; by exists []|].
    apply Forall_cons in Ho as [Hl Ho], Hi as [Hl' Hi]. destruct (fsim_step c Q l Hs Hl Hl') as (c1&E1&Hs1&D1&R1&pre1&P1). cbn [Team.frun]. rewrite E1.
    destruct (IH c1 Q Hs1 Ho Hi) as (c2&E2&Hs2&D2&R2&pre2&P2). exists c2. split; [done|]. split; [done|]. split; [congruence|]. split; [auto|].
    exists (pre1 ++ pre2). by rewrite <- app_assoc, <- P2.
  Qed.

  Theorem C68_stages s M ps rest Q ls :
    reachable s → (∀ u, is_Some (ps !! u) → stack s u = []) → agrees Own s M → stages_safe M ps rest Q → Forall outsider ls → Forall timely ls →
    ∃ s' ps' rest', frun (s, ps, rest) ls = Some (s', ps', rest') ∧ reachable s' ∧ dom ps' = dom ps ∧ (∃ pre, rest = pre ++ rest') ∧
      (rest' = [] → all_fine fine ps' = true → (∀ u, is_Some (ps' !! u) → stack s' u = []) ∧ ∃ M', agrees Own s' M' ∧ Q M').
  Proof.
    intros Hre Hst Hag Hs Ho Hi. destruct (fsim_run ls (s, ps, rest) Q) as ([[s' ps'] rest']&E&Hsim&Hd&Hr&Hpre); [by eapply fsim_start|done|done|].
    exists s', ps', rest'. split; [done|]. split; [by apply Hr|]. split; [done|]. split; [done|]. intros -> Hf. apply (fsim_join s' ps' [] Q Hsim Hf).
  Qed.
  Lemma frun_app (c : state * team * list team) ls ls' : frun c (ls ++ ls') = match frun c ls with Some c' => frun c' ls' | None => None end.
  Proof. revert c. induction ls as [|l ls IH]; intros c; [done|]. cbn [app Team.frun]. by destruct (fstep P FS cfg lab fine c l). Qed.
  Lemma frun_trun ls : ∀ s ps s' ps' rest, trun P FS cfg lab (s, ps) ls = Some (s', ps') → frun (s, ps, rest) (FTeam <$> ls) = Some (s', ps', rest).
  Proof.
    induction ls as [|l ls IH]; intros s ps s' ps' rest; cbn [Team.trun fmap list_fmap Team.frun fstep]; [by intros [= -> ->]|].
    destruct (tstep P FS cfg lab (s, ps) l) as [[s1 ps1]|]; [|done]. apply IH.
  Qed.
  Definition peaceful (l : flab (A:=A)) : Prop := match l with FTeam l => calm l | FJoin => True end.
  Lemma peaceful_outsider l : peaceful l → outsider l.
  Proof. by destruct l as [[[u o|u c]|]|]. Qed.
  Theorem C68_stages_complete rest : sure → ∀ s M ps Q,
    reachable s → (∀ u, is_Some (ps !! u) → stack s u = []) → agrees Own s M → stages_safe M ps rest Q →
    ∃ ls s' ps' M', Forall peaceful ls ∧ Forall timely ls ∧ frun (s, ps, rest) ls = Some (s', ps', []) ∧ all_fine fine ps' = true ∧
      reachable s' ∧ quiescent s' ∧ agrees Own s' M' ∧ Q M'.
  Proof.
    intros Hsure. induction rest as [|ps2 rest IH]; intros s M ps Q Hre Hst Hag Hs; cbn [stages_safe] in Hs; destruct Hs as (own&Ms&H1&H2&H3&H4).
    all: assert (Hrd : ready P FS cfg t0 lab own makes s ps Ms)
      by (split; [done|]; intros u w p Hu; destruct (H3 u w p Hu) as (->&?&?&_); split; [done|]; split; [done|]; split; [by apply Hst; eauto|]; split; [by eapply agrees_part|done]).
    all: destruct (C68_completes P FS cfg eqv good Heq HP HF t0 lab Hkey own makes Hmakes (proj1 H1) s ps Ms Hrd) as (ls&s'&ps'&Ms'&E1&E2&E3&Hre'&Hd&Hq&Hfin&E4).
    all: assert (Hdm : ∀ u, is_Some (ps !! u) ↔ is_Some (ps' !! u)) by (intros u; by rewrite <- !elem_of_dom, Hd).
    all: assert (Hend : ∀ (u : tid) p, ps !! u = Some (false, p) → ∃ o, ps' !! u = Some (false, Ret o) ∧ fine o = true ∧ stack s' u = [] ∧ rtc (plain (own u) false) (p, Ms u) (Ret o, Ms' u) ∧ agrees (own u) s' (Ms' u)).
    1,3: intros u p Hu; assert (is_Some (ps' !! u)) as [[w' p'] Hu'] by (apply Hdm; eauto); destruct (Hfin u w' p' Hu') as (->&o&->);
         destruct (E4 u p o Hu Hu') as (Hsu&Hr&Hagu); exists o; split; [done|]; split; [by eapply H3|]; done.
    all: assert (Hfine : all_fine fine ps' = true).
    1,3: apply all_fine_spec; intros u c Hc; assert (is_Some (ps !! u)) as [[w p] Hu] by (apply Hdm; eauto); destruct (H3 u w p Hu) as (->&_);
         destruct (Hend u p Hu) as (o&Ho&Hf&_); exists o; split; [congruence|done].
    all: set (Ms2 u := if decide (is_Some (ps !! u)) then Ms' u else ∅).
    all: assert (HMs : ∀ u, is_Some (ps !! u) → Ms2 u = Ms' u) by (intros u Hu; unfold Ms2; by destruct (decide (is_Some (ps !! u)))).
    all: assert (Hag' : ∀ u, is_Some (ps !! u) → agrees (own u) s' (Ms' u)) by (intros u [[w p] Hu]; destruct (H3 u w p Hu) as (->&_); by destruct (Hend u p Hu) as (o&_&_&_&_&?)).
    all: destruct (parts_exist own ps Ms2 H1) as [M' HM'].
    1,3: intros u x; unfold Ms2; destruct (decide (is_Some (ps !! u))) as [Hu|]; [|rewrite lookup_empty; by intros [? ?]]; intros Hx; by apply (Hag' u Hu).
    all: assert (Hends : ends own Ms ps Ms2).
    1,3: intros u p Hu; destruct (Hend u p Hu) as (o&_&Hf&_&Hr&_); exists o; split; [done|]; rewrite HMs by eauto;
         eapply rtc_subrel; [|exact Hr]; intros c c' Hp; inversion Hp; subst; by econstructor.
    all: specialize (H4 M' Ms2 HM' Hends).
    all: assert (HagM : agrees Own s' M') by (eapply agrees_whole; [done|done|]; intros u Hu; rewrite (HMs u Hu); by apply Hag').
    all: assert (Hc1 : Forall peaceful (FTeam <$> ls)) by (by apply Forall_fmap).
    all: assert (Hc2 : Forall timely (FTeam <$> ls)) by (by apply Forall_fmap).
    - exists (FTeam <$> ls), s', ps', M'. split_and!; try done. by apply frun_trun.
    - destruct H4 as [Hd2 H4]. destruct (IH s' M' ps2 Q) as (ls2&s2&ps3&M2&F1&F2&F3&F4&F5&F6&F7&F8); [done|intros u _; apply Hq|done|done|].
      exists ((FTeam <$> ls) ++ FJoin :: ls2), s2, ps3, M2. split; [by apply Forall_app_2; [|constructor]|]. split; [by apply Forall_app_2; [|constructor]|].
      split; [|done]. rewrite frun_app, (frun_trun _ _ _ _ _ _ E3). cbn [Team.frun fstep]. by rewrite Hfine.
  Qed.

  (** *** Stages whose threads have finitely many objects *)
  Definition restr (xs : list var) M : env := filter (λ p : var * tree L, p.1 ∈ xs) M.
  Lemma restr_lookup xs M x : restr xs M !! x = if bool_decide (x ∈ xs) then M !! x else None.
  Proof.
    unfold restr. case_bool_decide as Hx.
    - destruct (M !! x) as [T|] eqn:E; [by apply map_filter_lookup_Some|]. apply map_filter_lookup_None. by left.
    - apply map_filter_lookup_None. right. done.
  Qed.
  Lemma restr_none xs M x : x ∉ xs → restr xs M !! x = None.
  Proof. intros Hx. by rewrite restr_lookup, bool_decide_eq_false_2. Qed.
  Lemma restr_some xs M x : x ∈ xs → restr xs M !! x = M !! x.
  Proof. intros Hx. by rewrite restr_lookup, bool_decide_eq_true_2. Qed.
  Context (Hfun : ∀ a n l l', makes a n l → makes a n l' → l = l').
  Lemma stages_intro (names : tid → list var) (Qs : tid → env → Prop) M ps rest (Q : env → Prop) :
    shares (λ v x, x ∈ names v) ps → (∀ x, is_Some (M !! x) → Own x) →
    (∀ (v : tid) w p, ps !! v = Some (w, p) → w = false ∧ (lck cfg = false → v = t0) ∧
      wp (λ x, x ∈ names v) makes true p (restr (names v) M) (λ o M', fine o = true → Qs v M') ∧
      (sure → wp (λ x, x ∈ names v) makes false p (restr (names v) M) (λ o _, fine o = true))) →
    (∀ M', (∀ x, is_Some (M' !! x) → Own x) → (∀ v, is_Some (ps !! v) → Qs v (restr (names v) M')) →
      match rest with [] => Q M' | ps' :: rest' => dom ps' = dom ps ∧ stages_safe M' ps' rest' Q end) →
    stages_safe M ps rest Q.
  Proof.
    intros Hsh HM Hps Hn.
    assert (∃ own Ms, shares own ps ∧ parts own M Ms ∧ stage own Ms ps ∧
      ∀ M' Ms', parts own M' Ms' → ends own Ms ps Ms' → match rest with [] => Q M' | ps' :: rest' => dom ps' = dom ps ∧ stages_safe M' ps' rest' Q end); [|by destruct rest].
    exists (λ v x, x ∈ names v), (λ v, restr (names v) M). split; [done|]. split; [|split].
    - split; [intros u x Hx; by rewrite restr_some|]. split; [|done]. intros u x. rewrite restr_lookup. case_bool_decide; [done|by intros [? ?]].
    - intros u w p Hu. destruct (Hps u w p Hu) as (->&Ht&Hw&Hf). split; [done|]. split; [done|]. split; [by eapply wp_safe|].
      intros Hsu o M' Hr. apply (wp_steps _ _ _ Hfun _ _ _ _ _ (Hf Hsu) Hr).
    - intros M' Ms' (P1&P2&P3) He. apply Hn; [done|]. intros v [[w p] Hv]. destruct (Hps v w p Hv) as (->&Ht&Hw&_). destruct (He v p Hv) as (o&Ho&Hr).
      replace (restr (names v) M') with (Ms' v); [by apply (wp_steps _ _ _ Hfun _ _ _ _ _ Hw Hr)|].
      apply map_eq. intros x. rewrite restr_lookup. case_bool_decide as Hx; [by apply P1|]. apply eq_None_not_Some. by intros ?%P2.
  Qed.
End Stages.

(** the number of entries, if each value is known *)
Lemma entries_count {K A R V L} (P : policy K A R V) (FS : factory K) (lab : R → L) (s : state (R:=R) (K:=K) (A:=A) FS) (ts : list (tree L)) :
  (∀ a n, heap s !! a = Some n → ∃ T, shows P FS lab s a T) → (∀ a b T U, shows P FS lab s a T → shows P FS lab s b U → (a = b ↔ T = U)) →
  NoDup ts → (∀ T, (∃ a, shows P FS lab s a T) ↔ T ∈ ts) → size (heap s) = length ts.
Proof.
  intros Q1 Q2 Hts HT.
  assert (∃ bs, Forall2 (λ T a, shows P FS lab s a T) ts bs) as [bs Has].
  { assert (Hall' : Forall (λ T, ∃ a, shows P FS lab s a T) ts) by (apply Forall_forall; intros T HTc; by apply HT). clear HT Hts.
    induction Hall' as [|T ts [a Ha] _ [bs IH]]; [by exists []|]. exists (a :: bs). by constructor. }
  assert (Hnd : NoDup bs).
  { apply NoDup_alt. intros i j a Hi Hj. destruct (Forall2_lookup_r _ _ _ _ _ Has Hi) as (T&HTi&HTa). destruct (Forall2_lookup_r _ _ _ _ _ Has Hj) as (U&HUj&HUa).
    assert (T = U) as -> by (by apply (Q2 a a T U)). by eapply NoDup_lookup. }
  assert (Hp : (map_to_list (heap s)).*1 ≡ₚ bs).
  { apply NoDup_Permutation; [apply NoDup_fst_map_to_list|done|]. intros a. rewrite elem_of_list_fmap. split.
    - intros ([a' n]&->&Hn%elem_of_map_to_list). simpl. destruct (Q1 a' n Hn) as [T HTa]. assert (HTc : T ∈ ts) by (apply HT; eauto).
      apply elem_of_list_lookup in HTc as [i Hi]. destruct (Forall2_lookup_l _ _ _ _ _ Has Hi) as (b&Hb&HbT).
      assert (a' = b) as -> by (by apply (Q2 a' b T T)). by eapply elem_of_list_lookup_2.
    - intros Ha. apply elem_of_list_lookup in Ha as [i Hi]. destruct (Forall2_lookup_r _ _ _ _ _ Has Hi) as (T&_&HTa).
      assert (∃ n, heap s !! a = Some n) as [n Hn] by (inversion HTa; subst; eauto using entry_heap). exists (a, n). split; [done|]. by apply elem_of_map_to_list. }
  by rewrite (Forall2_length _ _ _ Has), <- Hp, fmap_length.
Qed.

(** ** Example: two threads make the same list, each with objects of its own;
    thread 3 makes one of the elements and destroys it *)
Definition pairs (u : tid) : prog (A:=option nat) (L:=option nat) (O:=option (option nat * bool)) :=
  let new x a ys p := Call (ONew (10 * u + x) a ((λ y, 10 * u + y) <$> ys)) (λ b : bool, if b then p else Ret None) in
  new 1 (Some 1) [] (new 2 (Some u) [] (new 3 None [1; 2; 1] (Look (10 * u + 3) [1] (λ l _, Same (10 * u + 3) [2] (10 * u + 1) [] (λ b, Ret (Some (l, b))))))).
Definition tens (u : tid) (x : var) : Prop := 10 * u ≤ x ∧ x < 10 * u + 10.
Definition trio (n i : nat) : list (tlab (A:=option nat)) :=
  concat ((λ j, [TGo 1; TGo 2; TEnv (LRun 1 (Choice (100 + 3 * (i + j)) false)); TEnv (LRun 2 (Choice (101 + 3 * (i + j)) false)); TEnv (LRun 3 (Choice (102 + 3 * (i + j)) false))]) <$> seq 0 n).
Definition crowd : list (tlab (A:=option nat)) := [TEnv (LStart 3 (ONew 31 (Some 2) []))] ++ trio 30 0 ++ [TEnv (LStart 3 (ODestroy 31))] ++ trio 60 30.
Notation pteam := (<[1:=(false, pairs 1)]> (<[2:=(false, pairs 2)]> (∅ : gmap tid (bool * prog (A:=option nat) (L:=option nat) (O:=option (option nat * bool)))))).
Lemma pairs_wp u thr : wp (tens u) cmakes thr (pairs u) ∅ (λ o M, o = Some (Some u, true) ∨ thr = true ∧ o = None).
Proof.
  assert (Ht : ∀ x, x < 10 → tens u (10 * u + x)) by (intros; unfold tens; lia).
  assert (Hne : ∀ (M : gmap var (tree (option nat))) T x y, x ≠ y → <[10 * u + x:=T]> M !! (10 * u + y) = M !! (10 * u + y)) by (intros; apply lookup_insert_ne; lia).
  unfold pairs. cbn [wp fmap list_fmap]. split; [apply Ht; lia|]. split; [done|]. exists [], (Some 1). split; [constructor|]. split; [split; [done|by right]|].
  split; [|by intros; right]. split; [apply Ht; lia|]. split; [by rewrite Hne|]. exists [], (Some u). split; [constructor|]. split; [split; [done|by right]|].
  split; [|by intros; right]. split; [apply Ht; lia|]. split; [by rewrite !Hne|]. exists [Tree (Some 1) []; Tree (Some u) []; Tree (Some 1) []], None.
  split; [repeat constructor; rewrite ?Hne, ?lookup_insert by done; done|]. split; [split; [done|by left]|].
  split; [|by intros; right]. eexists _, (Some u), []. split; [by rewrite lookup_insert|]. split; [done|].
  eexists _, _, (Tree (Some 1) []), (Tree (Some 1) []). split; [by rewrite lookup_insert|]. split; [done|]. split; [by rewrite !Hne, lookup_insert by done|]. split; [done|].
  intros b Hb. left. assert (b = true) as -> by (by apply Hb). done.
Qed.
Example C68_at_work : let c := trun cP cFS rc fst (init cFS, pteam) crowd in
  ready cP cFS rc 0 fst tens cmakes (init (R:=ckey) cFS) pteam (λ _, ∅) ∧ Forall (stranger tens) crowd ∧ Forall (in_time rc 0) crowd ∧
  match c with
  | Some (s, ps) => ps !! 1 = Some (false, Ret (Some (Some 1, true))) ∧ ps !! 2 = Some (false, Ret (Some (Some 2, true))) ∧ size (heap s) = 4 ∧
      live s 11 = live s 12 ∧ live s 11 = live s 21 ∧ is_Some (live s 11) ∧ bool_decide (live s 13 = live s 23) = false ∧ vars s !! 31 = None
  | None => False
  end.
Proof.
  split.
  { split; [by exists []|]. intros u w p Hu. assert (w = false ∧ p = pairs u) as [-> ->].
    { destruct (decide (u = 1)) as [->|]; [rewrite lookup_insert in Hu; by simplify_eq|]. rewrite lookup_insert_ne in Hu by done.
      destruct (decide (u = 2)) as [->|]; [rewrite lookup_insert in Hu; by simplify_eq|]. by rewrite lookup_insert_ne in Hu by done. }
    split; [done|]. split; [done|]. split; [done|]. split; [split; [done|intros x [? Hx]; by rewrite lookup_empty in Hx]|].
    eapply wp_safe; [exact cmakes_fun|exact (pairs_wp u true)]. }
  split.
  { apply Forall_forall. intros l Hl. assert (Hb : forallb (λ l : tlab (A:=option nat), match l with TEnv (LStart 3 (ONew 31 _ _)) | TEnv (LStart 3 (ODestroy 31)) | TEnv (LRun _ _) | TGo _ => true | _ => false end) crowd = true) by (vm_compute; reflexivity).
    rewrite forallb_forall in Hb. apply elem_of_list_In in Hl. specialize (Hb l Hl). destruct l as [[u o|u c]|]; [|done|done]. intros v Hv x Hx. unfold tens in Hx.
    assert (u = 3) as -> by (by repeat case_match). simpl in Hv. assert (x ≠ 31) by lia. destruct o; try done; simpl in Hb; repeat (case_match; try done); simpl; apply bool_decide_eq_false; lia. }
  split; [apply Forall_forall; intros [l|] _; done|]. vm_compute. split_and!; try reflexivity. by eexists.
Qed.

Print Assumptions C68_team.
Print Assumptions C68_completes.
Print Assumptions C68_stages.
Print Assumptions C68_stages_complete.
