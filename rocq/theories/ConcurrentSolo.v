(** A creation run without interruption by other threads, for the machine of
    [Concurrent.v]. *)
From Verif Require Export ConcurrentMore.

Section Solo.
  Context {K A R V : Type}.
  Context (P : Core.policy K A R V) (eqv : K → K → bool) (good : R → Prop).
  Context (Heq : equivalence eqv) (HP : policy_ok eqv good P).
  Notation state := (Concurrent.state (K:=K) (A:=A) (R:=R)).
  Notation instr := (Concurrent.instr (K:=K) (A:=A) (R:=R)).
  Notation node := (Concurrent.node (R:=R)).
  Notation event := (Core.event (K:=K) (R:=R)).
  Notation Inv := (ConcurrentInv.Inv P eqv good).
  Notation step := (Concurrent.step P eqv).
  Notation run := (Concurrent.run P eqv).
  Notation exec := (Concurrent.exec P eqv).
  Notation step_next := (ConcurrentProofs.step_next P eqv good Heq HP).
  Notation served := (ConcurrentSpec.served P eqv).
  Implicit Types (s : state) (n m : node) (a b h : addr) (i : instr) (rest : list instr).

  Context (s0 : state) (t : tid) (x : var) (p : A) (ys : list var).
  Definition copied (zs : list var) (ks : list addr) : Prop := Forall2 (λ y h, vars s0 !! y = Some (Some h)) zs ks.
  (** the contents an entry visited by the creation has or had *)
  Definition before h (r : R) : R := match ents s0 !! h with Some n => n_rep n | None => r end.
  Definition fresh_miss h (k : K) : Prop := ents s0 !! h = None → ∀ b m, ents s0 !! b = Some m → eqv (p_key P (n_rep m)) k = false.

  (** where the creation is; [T]: an exception was thrown *)
  Inductive phase (T : bool) s : Prop :=
  | ph_make ys0 ys1 ks : ys = ys0 ++ ys1 → copied ys0 ks → stack s t = [IMake x p ys1 ks] →
      vars s = <[x:=None]> (vars s0) → log s = log s0 → same_reps s0 s None → phase T s
  | ph_enter ks r : copied ys ks → p_make P p ks = Some r → stack s t = [IEnter x p r] →
      vars s = <[x:=None]> (vars s0) → log s = log s0 → same_reps s0 s None → phase T s
  | ph_visit ks r h l n : copied ys ks → p_make P p ks = Some r → stack s t = [IVisit x h p l (p_key P r)] →
      vars s = <[x:=None]> (vars s0) → log s = log s0 → same_reps s0 s (Some h) → ents s !! h = Some n →
      n_rep n = before h r → eqv (p_key P (n_rep n)) (p_key P r) = true → fresh_miss h (p_key P r) → phase T s
  | ph_abort l : stack s t = map IRelease l ++ [IAbort x] →
      vars s = <[x:=None]> (vars s0) → log s = log s0 →
      (∀ b n, ents s0 !! b = Some n → ∃ n', ents s !! b = Some n' ∧ n_rep n' = n_rep n) →
      (∀ b n, ents s !! b = Some n → ents s0 !! b = None → p_val P (n_rep n) = None) →
      T = true ∨ (∃ ks, copied ys ks ∧ p_make P p ks = None) → phase T s
  | ph_good ks r h l bs : copied ys ks → p_make P p ks = Some r →
      stack s t = [IAddRef x h l (p_key P r)] ∨ stack s t = [ILeave x h l (p_key P r)] ∨ stack s t = map IRelease l ++ [IBind x h (p_key P r)] →
      vars s = <[x:=None]> (vars s0) → log s = bs ++ log s0 → same_reps s0 s (Some h) → served s0 s p r h bs → phase T s
  | ph_thrown : stack s t = [] → vars s = vars s0 → log s = EvThrow x :: log s0 →
      (∀ b n, ents s0 !! b = Some n → ∃ n', ents s !! b = Some n' ∧ n_rep n' = n_rep n) →
      (∀ b n, ents s !! b = Some n → ents s0 !! b = None → p_val P (n_rep n) = None) →
      T = true ∨ (∃ ks, copied ys ks ∧ p_make P p ks = None) → phase T s
  | ph_done ks r h bs : copied ys ks → p_make P p ks = Some r → stack s t = [] →
      vars s = <[x:=Some h]> (vars s0) → log s = EvNew x (p_key P r) :: bs ++ log s0 → same_reps s0 s (Some h) → served s0 s p r h bs → phase T s.

  Lemma same_put s s' h n n' o : same_reps s0 s o → ents s !! h = Some n → ents s' = <[h:=n']> (ents s) → n_rep n' = n_rep n → same_reps s0 s' o.
  Proof.
    intros H Hn He Hr b Hb. rewrite He. rewrite <- (H b Hb). destruct (decide (b = h)) as [->|Hne].
    - rewrite lookup_insert, Hn. simpl. by rewrite Hr.
    - by rewrite lookup_insert_ne.
  Qed.
  Lemma same_at s s' h n' : same_reps s0 s (Some h) → ents s' = <[h:=n']> (ents s) → same_reps s0 s' (Some h).
  Proof. intros H He b Hb. rewrite He, lookup_insert_ne; [by apply H|]. congruence. Qed.
  Lemma same_old s o : same_reps s0 s o → ∀ b n, o ≠ Some b → ents s0 !! b = Some n → ∃ n', ents s !! b = Some n' ∧ n_rep n' = n_rep n.
  Proof.
    intros H b n Hb Hn. specialize (H b Hb). rewrite Hn in H. simpl in H. destruct (ents s !! b) as [n'|]; simplify_eq/=. eauto.
  Qed.
  Lemma same_new s o : same_reps s0 s o → ∀ b n, o ≠ Some b → ents s !! b = Some n → ents s0 !! b = None → False.
  Proof. intros H b n Hb Hn H0. specialize (H b Hb). by rewrite Hn, H0 in H. Qed.
  Lemma served_put s s' h n n' r h' bs : served s0 s p r h' bs → ents s !! h = Some n → ents s' = <[h:=n']> (ents s) → n_rep n' = n_rep n → served s0 s' p r h' bs.
  Proof.
    intros (m&Hm&Hv&Hk&Hc) Hn He Hr. unfold ConcurrentSpec.served. rewrite He. destruct (decide (h' = h)) as [->|Hne].
    - exists n'. rewrite lookup_insert. assert (m = n) as -> by congruence. by rewrite Hr.
    - exists m. rewrite lookup_insert_ne by done. done.
  Qed.
  Lemma insert_none : vars s0 !! x = None → delete x (<[x:=None]> (vars s0)) = vars s0.
  Proof. intros. by rewrite delete_insert. Qed.

  Lemma phase_step T s thr s' : vars s0 !! x = None → (∀ b n, ents s0 !! b = Some n → b < clock s0) → clock s0 ≤ clock s →
    Inv s → phase T s → step s (LRun t thr) = Next s' → phase (T || thr) s'.
  Proof.
    intros Hx0 Hlow Hck HI Hph Hs. pose proof (step_next s _ s' HI Hs) as HI'. simpl in Hs.
    assert (Hst : ∀ s1 new, stack (set_stack t new s1) t = new) by (intros; by rewrite stack_set, decide_True).
    assert (Hl : ∀ s1 new e, stack (add_log e (set_stack t new s1)) t = new).
    { intros. unfold stack. simpl. by rewrite lookup_insert. }
    assert (Hcl : ∀ s1 new e, stack (set_clock e (set_stack t new s1)) t = new).
    { intros. unfold stack. simpl. by rewrite lookup_insert. }
    destruct Hph as [ys0 ys1 ks Hys Hcp E Hv Hlog Hsm|ks r Hcp Hmk E Hv Hlog Hsm|ks r h l n Hcp Hmk E Hv Hlog Hsm Hn Hr Hk Hfm
                    |l E Hv Hlog Ho Hnew HT|ks r h l bs Hcp Hmk E Hv Hlog Hsm Hsv|E|ks r h bs Hcp Hmk E].
    - rewrite E in Hs. destruct ys1 as [|y ys1]; cbn [Concurrent.exec] in Hs.
      + rewrite app_nil_r in Hys. subst ys0. destruct (p_make P p ks) as [r|] eqn:Em; injection Hs as <-.
        * by eapply ph_enter.
        * eapply ph_abort; [apply Hst|done|done|intros b n Hn; by eapply same_old|intros b n Hn H0; by destruct (same_new _ _ Hsm b n)|eauto].
      + destruct (live s y) as [h|] eqn:El; [|done]. unfold add_ref in Hs. destruct (ents s !! h) as [n|] eqn:En; [|done]. injection Hs as <-.
        eapply (ph_make _ _ (ys0 ++ [y]) ys1 (ks ++ [h])).
        * by rewrite <- app_assoc.
        * apply Forall2_app; [done|]. constructor; [|constructor]. unfold live in El. rewrite Hv in El.
          destruct (decide (y = x)) as [->|]; [by rewrite lookup_insert in El|]. rewrite lookup_insert_ne in El by done.
          destruct (vars s0 !! y) as [[]|]; congruence.
        * apply Hst.
        * done.
        * done.
        * by eapply (same_put s).
    - rewrite E in Hs. cbn [Concurrent.exec] in Hs. destruct thr.
      { injection Hs as <-. eapply ph_abort; [apply Hst|done|done|intros b n Hn; by eapply same_old|intros b n Hn H0; by destruct (same_new _ _ Hsm b n)|].
        left. by rewrite orb_true_r. }
      destruct (find P eqv s (p_key P r)) as [h|] eqn:Ef.
      + apply find_some in Ef as (n&Hn&Hk). rewrite Hn in Hs. destruct n as [r' c [?|]]; [done|]. injection Hs as <-.
        destruct (ents s0 !! h) as [n0|] eqn:E0; [|exfalso; by eapply (same_new _ _ Hsm h)].
        destruct (same_old _ _ Hsm h n0) as (n'&Hn'&Hr'); [done|done|]. rewrite Hn in Hn'. injection Hn' as <-. simpl in Hr', Hk.
        eapply (ph_visit _ _ ks r h); [done|done|apply Hst|done|done| |apply lookup_insert| |done|].
        * eapply (same_at s); [|done]. intros b _. by apply Hsm.
        * simpl. unfold before. by rewrite E0.
        * intros ?. congruence.
      + injection Hs as <-. assert (Hnone : ents s0 !! clock s = None).
        { destruct (ents s0 !! clock s) as [n|] eqn:E0; [|done]. pose proof (Hlow _ _ E0). lia. }
        eapply (ph_visit _ _ ks r (clock s)); [done|done|apply Hcl|done|done| |apply lookup_insert| |simpl; apply Heq|].
        * eapply (same_at s); [|done]. intros b _. by apply Hsm.
        * simpl. unfold before. by rewrite Hnone.
        * intros _ b m Hb. destruct (same_old _ _ Hsm b m) as (m'&Hm'&<-); [done|done|].
          destruct (eqv (p_key P (n_rep m')) (p_key P r)) eqn:Ek; [|done]. by destruct (find_none P eqv s _ b m' Ef Hm' Ek).
    - rewrite E in Hs. cbn [Concurrent.exec] in Hs. rewrite Hn in Hs. destruct (p_val P (n_rep n)) as [v|] eqn:Ev.
      + injection Hs as <-. eapply (ph_good _ _ ks r h l []); [done|done|left; apply Hst|done|done|done|].
        exists n. split_and!; [done|eauto|done|]. unfold before in Hr. destruct (ents s0 !! h) as [n0|] eqn:E0.
        * rewrite <- Hr, Ev. done.
        * split; [by apply Hfm|]. rewrite <- Hr, Ev. done.
      + destruct thr; injection Hs as <-.
        * eapply ph_abort; [apply Hst|done|done| | |left; by rewrite orb_true_r].
          -- intros b m Hb. destruct (decide (b = h)) as [->|Hne].
             ++ exists (with_own n None). split; [apply lookup_insert|]. simpl. unfold before in Hr. by rewrite Hb in Hr.
             ++ simpl. rewrite lookup_insert_ne by done. eapply same_old; [done|congruence|done].
          -- intros b m Hb H0. simpl in Hb. destruct (decide (b = h)) as [->|Hne].
             ++ rewrite lookup_insert in Hb. by injection Hb as <-.
             ++ rewrite lookup_insert_ne in Hb by done. exfalso. eapply (same_new _ _ Hsm b m); [congruence|done|done].
        * eapply (ph_good _ _ ks r h l [EvBuild h (p_key P r)]); [done|done|left; apply Hl|done|by simpl; rewrite Hlog|by eapply (same_at s)|].
          assert (Hin : IAddRef x h l (p_key P r) ∈ stack (add_log (EvBuild h (p_key P r)) (set_stack t [IAddRef x h l (p_key P r)]
             (put h (with_rep n (p_build P p (n_rep n))) s))) t) by (rewrite Hl; left).
          pose proof (i_ok _ _ _ _ HI' t _ Hin) as [(n1&Hn1&Hk1) (n2&Hn2&Hv2)]. rewrite Hn1 in Hn2. injection Hn2 as <-.
          simpl in Hn1. rewrite lookup_insert in Hn1. injection Hn1 as <-.
          eexists. split; [apply lookup_insert|]. split; [done|]. split; [done|]. unfold before in Hr. simpl.
          destruct (ents s0 !! h) as [n0|] eqn:E0.
          -- rewrite <- Hr, Ev. done.
          -- split; [by apply Hfm|]. rewrite <- Hr, Ev. done.
    - rewrite E in Hs. destruct l as [|h l]; simpl in Hs.
      + injection Hs as <-. eapply ph_thrown; [apply Hl|simpl; rewrite Hv; by apply insert_none|by simpl; rewrite Hlog|done|done|].
        destruct HT as [->|]; [by left|by right].
      + unfold release in Hs. destruct (ents s !! h) as [n|] eqn:En; [|done]. injection Hs as <-.
        eapply ph_abort; [apply Hst|done|done| | |].
        * intros b m Hb. destruct (Ho b m Hb) as (n'&Hn'&Hr'). simpl. destruct (decide (b = h)) as [->|Hne].
          -- rewrite lookup_insert. eexists. split; [done|]. simpl. congruence.
          -- rewrite lookup_insert_ne by done. eauto.
        * intros b m Hb H0. simpl in Hb. destruct (decide (b = h)) as [->|Hne].
          -- rewrite lookup_insert in Hb. injection Hb as <-. simpl. by eapply Hnew.
          -- rewrite lookup_insert_ne in Hb by done. by eapply Hnew.
        * destruct HT as [->|]; [by left|by right].
    - destruct E as [E|[E|E]]; rewrite E in Hs.
      + simpl in Hs. unfold add_ref in Hs. destruct (ents s !! h) as [n|] eqn:En; [|done]. injection Hs as <-.
        eapply (ph_good _ _ ks r h l bs); [done|done|right; left; apply Hst|done|done|by eapply (same_at s)|by eapply (served_put s)].
      + simpl in Hs. destruct (ents s !! h) as [n|] eqn:En; [|done]. injection Hs as <-.
        eapply (ph_good _ _ ks r h l bs); [done|done|right; right; apply Hst|done|done|by eapply (same_at s)|by eapply (served_put s)].
      + destruct l as [|h' l]; simpl in Hs.
        * injection Hs as <-. eapply (ph_done _ _ ks r h bs); [done|done|apply Hl|simpl; by rewrite Hv, insert_insert|by simpl; rewrite Hlog|done|done].
        * unfold release in Hs. destruct (ents s !! h') as [n|] eqn:En; [|done]. injection Hs as <-.
          eapply (ph_good _ _ ks r h l bs); [done|done|right; right; apply Hst|done|done|by eapply (same_put s)|by eapply (served_put s)].
    - by rewrite E in Hs.
    - by rewrite E in Hs.
  Qed.

  Lemma phase_mono T T' s : phase T s → (T = true → T' = true) → phase T' s.
  Proof.
    intros Hph HTT. destruct Hph as [ys0 ys1 ks Hys Hcp E Hv Hlog Hsm|ks r Hcp Hmk E Hv Hlog Hsm|ks r h l n Hcp Hmk E Hv Hlog Hsm Hn Hr Hk Hfm
                    |l E Hv Hlog Ho Hnew HT|ks r h l bs Hcp Hmk E Hv Hlog Hsm Hsv|E Hv Hlog Ho Hnew HT|ks r h bs Hcp Hmk E].
    - by eapply ph_make.
    - by eapply ph_enter.
    - by eapply ph_visit.
    - eapply ph_abort; try done. destruct HT as [HT|]; [left; auto|by right].
    - by eapply ph_good.
    - eapply ph_thrown; try done. destruct HT as [HT|]; [left; auto|by right].
    - by eapply ph_done.
  Qed.
  Lemma phase_run cs : ∀ T s s', vars s0 !! x = None → (∀ b n, ents s0 !! b = Some n → b < clock s0) → clock s0 ≤ clock s →
    Inv s → phase T s → run s (map (LRun t) cs) = Next s' → phase (T || existsb id cs) s' ∧ Inv s' ∧ ∀ t', t' ≠ t → stack s' t' = stack s t'.
  Proof.
    induction cs as [|c cs IH]; intros T s s' Hx Hlow Hck HI Hph Hr; cbn [map Concurrent.run] in Hr.
    { simplify_eq. simpl. rewrite orb_false_r. done. }
    cbn [existsb id]. destruct (step s (LRun t c)) as [s1| |] eqn:E; [| |done].
    - destruct (step_ev P eqv good HP s _ s1 HI E) as (Hck1&_).
      pose proof (step_next s _ s1 HI E) as HI1.
      destruct (IH (T || c) s1 s' Hx Hlow ltac:(lia) HI1 (phase_step T s c s1 Hx Hlow Hck HI Hph E) Hr) as (H1&H2&H3).
      rewrite orb_assoc. split_and!; [done|done|]. intros t' Ht'. rewrite H3 by done. simpl in E. destruct (stack s t) as [|i rest] eqn:Es; [done|].
      by apply (exec_goal P eqv s t i rest c s1 E).
    - destruct (IH T s s' Hx Hlow Hck HI Hph Hr) as (H1&H2&H3). split_and!; [|done|done].
      eapply phase_mono; [exact H1|]. intros [->| ->]%orb_true_iff; [done|]. by rewrite !orb_true_r.
  Qed.

  Lemma outcome s1 cs s2 : Inv s0 → step s0 (LStart t (ONew x p ys)) = Next s1 →
    run s1 (map (LRun t) cs) = Next s2 → stack s2 t = [] →
    (∀ t', t' ≠ t → stack s2 t' = stack s0 t') ∧
    ((vars s2 = vars s0 ∧ log s2 = EvThrow x :: log s0 ∧
      (∀ b n, ents s0 !! b = Some n → ∃ n', ents s2 !! b = Some n' ∧ n_rep n' = n_rep n) ∧
      (∀ b n, ents s2 !! b = Some n → ents s0 !! b = None → p_val P (n_rep n) = None) ∧
      (true ∈ cs ∨ ∃ ks, copied ys ks ∧ p_make P p ks = None)) ∨
     ∃ ks r h bs, copied ys ks ∧ p_make P p ks = Some r ∧ vars s2 = <[x:=Some h]> (vars s0) ∧
       log s2 = EvNew x (p_key P r) :: bs ++ log s0 ∧ same_reps s0 s2 (Some h) ∧ served s0 s2 p r h bs).
  Proof.
    intros HI Hst Hr Hemp. pose proof (step_next s0 _ s1 HI Hst) as HI1. pose proof (step_ev P eqv good HP s0 _ s1 HI Hst) as (Hck&_).
    simpl in Hst. case_decide as Htg; [done|]. destruct (stack s0 t) eqn:E0; [|done]. destruct (vars s0 !! x) eqn:Ex; [done|]. injection Hst as <-.
    match type of Hr with Concurrent.run _ _ ?s1 _ = _ => assert (Hph : phase false s1) end.
    { eapply (ph_make _ _ [] ys []); [done|constructor|by rewrite stack_set, decide_True|done|done|]. by intros b _. }
    destruct (phase_run cs false _ s2 Ex (i_low _ _ _ _ HI) Hck HI1 Hph Hr) as (H1&_&H3). split.
    { intros t' Ht'. rewrite H3 by done. rewrite stack_set, decide_False by done. done. }
    assert (Hnil : ∀ (l : list addr) (j : instr), map IRelease l ++ [j] = [] → False) by (intros [|] ?; done).
    destruct H1 as [ys0 ys1 ks Hys Hcp E|ks r Hcp Hmk E|ks r h l n Hcp Hmk E
                    |l E|ks r h l bs Hcp Hmk [E|[E|E]]|E Hv Hlog Ho Hn HT|ks r h bs Hcp Hmk E Hv Hlog Hsm Hsv]; try congruence;
      try (exfalso; rewrite E in Hemp; by eapply Hnil).
    - left. split_and!; try done. destruct HT as [HT|]; [left|by right]. simpl in HT. apply existsb_exists in HT as (c&Hc&Hcc). 
      destruct c; [|done]. by apply elem_of_list_In.
    - right. exists ks, r, h, bs. done.
  Qed.
End Solo.

Section Retry.
  Context {K A R V : Type}.
  Context (P : Core.policy K A R V) (eqv : K → K → bool) (good : R → Prop).
  Context (Heq : equivalence eqv) (HP : policy_ok eqv good P).
  Notation state := (Concurrent.state (K:=K) (A:=A) (R:=R)).
  Notation node := (Concurrent.node (R:=R)).
  Notation Inv := (ConcurrentInv.Inv P eqv good).
  Notation step := (Concurrent.step P eqv).
  Notation run := (Concurrent.run P eqv).
  Implicit Types (s : state) (n m : node) (a b h : addr) (t : tid).

  (** not in the way: no other thread has access to an entry *)
  Definition clear s t : Prop := ∀ a n t', ents s !! a = Some n → n_own n = Some t' → t' = t.
  Lemma clear_step s t thr s' : Inv s → heads s → clear s t → step s (LRun t thr) = Next s' → clear s' t.
  Proof.
    intros HI Hh Hc Hs a n t' Hn Ho. destruct (decide (t' = t)) as [|Hne]; [done|]. exfalso.
    pose proof (ConcurrentProofs.step_next P eqv good Heq HP s _ s' HI Hs) as HI'.
    pose proof (i_acc _ _ _ _ HI' a t') as Hac. rewrite Hn in Hac. unfold has in Hac. rewrite decide_True in Hac by done.
    simpl in Hs. destruct (stack s t) as [|i rest] eqn:E; [done|]. destruct (exec_goal P eqv s t i rest thr s' Hs) as [_ Hoth].
    rewrite Hoth in Hac by done. rewrite (i_acc _ _ _ _ HI a t') in Hac. destruct (ents s !! a) as [m|] eqn:Em; [|done].
    unfold has in Hac. case_decide; [|done]. by destruct Hne; eapply Hc.
  Qed.

  Lemma finish s0 t x p ys ks (w : nat) : vars s0 !! x = None → (∀ b n, ents s0 !! b = Some n → b < clock s0) → t ≠ gc_tid →
    Forall2 (λ y h, vars s0 !! y = Some (Some h)) ys ks →
    ∀ s, lsum (weight P) (stack s t) ≤ w → clock s0 ≤ clock s → Inv s → heads s → clear s t → phase P eqv s0 t x p ys false s →
    ∃ cs s', Forall (λ c, c = false) cs ∧ run s (map (LRun t) cs) = Next s' ∧ stack s' t = [].
  Proof.
    intros Hx Hlow Ht Hys. induction w as [|w IH]; intros s Hw Hck HI Hh Hc Hph.
    all: destruct (stack s t) as [|i rest] eqn:E; [exists [], s; done|].
    { rewrite lsum_cons in Hw. destruct i; simpl in Hw; lia. }
    destruct (progress P eqv good Heq HP s t false HI Hh) as [[s1 Hs]|(t'&Hne&(a&n&Hn&Ho)&_)].
    - by rewrite E.
    - unfold illegal. rewrite E. destruct Hph as [ys0 ys1 ks' Hys' Hcp E' Hv|ks' r Hcp Hmk E'|ks' r h l n Hcp Hmk E'
                    |l E'|ks' r h l bs Hcp Hmk [E'|[E'|E']]|E'|ks' r h bs Hcp Hmk E']; rewrite E in E'; try (injection E' as -> ->; by intros []);
        try (destruct l; injection E' as -> ->; by intros []); try done.
      injection E' as -> ->. destruct ys1 as [|y ys1]; [by intros []|]. subst ys. apply Forall2_app_inv_l in Hys as (k1&k2&_&Hk2&->).
      inversion Hk2 as [|? h ? ? Hy _]; subst. unfold live. rewrite Hv, lookup_insert_ne by congruence. by rewrite Hy.
    - assert (Hw1 : lsum (weight P) (stack s1 t) ≤ w).
      { pose proof Hs as Hs2. simpl in Hs2. rewrite E in Hs2.
        pose proof (exec_weight P eqv good HP s t i rest false s1 HI Ht E Hs2) as Hwe. rewrite E in Hwe. lia. }
      destruct (step_ev P eqv good HP s _ s1 HI Hs) as (Hck1&_).
      destruct (IH s1) as (cs&s'&H1&H2&H3); [done|lia|by eapply (ConcurrentProofs.step_next P eqv good Heq HP)|by eapply heads_step|by eapply clear_step| |].
      { by eapply (phase_step P eqv good Heq HP s0 t x p ys false s false s1). }
      exists (false :: cs), s'. split_and!; [by constructor| |done]. cbn [map Concurrent.run]. by rewrite Hs.
    - by destruct Hne; eapply Hc.
  Qed.

  Lemma copied_unique s ys ks ks' : copied s ys ks → copied s ys ks' → ks = ks'.
  Proof.
    unfold copied. intros H. revert ks'. induction H as [|y h ys ks Hy _ IH]; intros ks' H'; inversion H'; subst; [done|].
    f_equal; [congruence|by apply IH].
  Qed.
  Lemma retry s t x p ys ks r : Inv s → heads s → t ≠ gc_tid → stack s t = [] → clear s t → vars s !! x = None →
    Forall2 (λ y h, vars s !! y = Some (Some h)) ys ks → p_make P p ks = Some r →
    ∃ s1 cs s2 h bs, step s (LStart t (ONew x p ys)) = Next s1 ∧ Forall (λ c, c = false) cs ∧
      run s1 (map (LRun t) cs) = Next s2 ∧ stack s2 t = [] ∧ vars s2 = <[x:=Some h]> (vars s) ∧ served P eqv s s2 p r h bs.
  Proof.
    intros HI Hh Ht Hst Hc Hx Hys Hmk.
    assert (∃ s1, step s (LStart t (ONew x p ys)) = Next s1 ∧ phase P eqv s t x p ys false s1 ∧ ents s1 = ents s) as (s1&Hs&Hph&He).
    { simpl. rewrite decide_False, Hst, Hx by done. eexists. split; [done|]. split; [|done].
      eapply (ph_make _ _ _ _ _ _ _ _ _ [] ys []); [done|constructor|by rewrite stack_set, decide_True|done|done|]. by intros b _. }
    pose proof (ConcurrentProofs.step_next P eqv good Heq HP s _ s1 HI Hs) as HI1.
    destruct (step_ev P eqv good HP s _ s1 HI Hs) as (Hck1&_).
    destruct (finish s t x p ys ks (lsum (weight P) (stack s1 t)) Hx (i_low _ _ _ _ HI) Ht Hys s1) as (cs&s2&Hcs&Hr&Hemp);
      [done|done|done|by eapply heads_step|unfold clear; by rewrite He|done|].
    destruct (outcome P eqv good Heq HP s t x p ys s1 cs s2 HI Hs Hr Hemp) as [_ [(_&_&_&_&HT)|(ks'&r'&h&bs&Hcp&Hmk'&Hv&_&_&Hsv)]].
    - exfalso. destruct HT as [HT|(ks'&Hcp&Hn)]; [by rewrite Forall_forall in Hcs; specialize (Hcs _ HT)|].
      rewrite (copied_unique s ys ks' ks Hcp Hys) in Hn. congruence.
    - rewrite (copied_unique s ys ks' ks Hcp Hys) in Hmk'. assert (r' = r) as -> by congruence. by exists s1, cs, s2, h, bs.
  Qed.
End Retry.
