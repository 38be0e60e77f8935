(** C72: a program that uses flyweights with concurrent_factory behaves as it
    would with plain values of any depth, whatever other threads and the
    garbage collector do. *)
From Verif Require Import PropInner Client.
From Verif Require Import PropConcurrent ConClient.
From Verif Require Import PropConHeld ConcurrentGc.
From Verif Require Import ConcurrentProofs ConcurrentLive ConcurrentSolo.

Section Spec.
  Context {K A R V L : Type} (P : Core.policy K A R V).
  Notation state := (state (K:=K) (A:=A) (R:=R)).
  Context (lab : R → L) (own : var → Prop).
  (** the tree of values an entry is the root of *)
  Inductive cshows (s : state) : addr → tree L → Prop :=
  | Cshows h n ts : ents s !! h = Some n → Forall2 (cshows s) (p_kids P (n_rep n)) ts → cshows s h (Tree (lab (n_rep n)) ts).
  (** the objects of the program are what they would be as plain values *)
  Definition cdenotes (s : state) (x : var) (o : option (tree L)) : Prop :=
    match o with
    | Some T => ∃ v, value_of s x = Some v ∧ cshows s v.1 T
    | None => vars s !! x = None
    end.
  Definition cagrees (s : state) (M : gmap var (tree L)) : Prop :=
    (∀ x, own x → cdenotes s x (M !! x)) ∧ ∀ x, is_Some (M !! x) → own x.
  (** calls that give [x] a value or take it away *)
  Definition cwrites (x : var) (l : label (A:=A)) : bool :=
    match l with
    | LStart _ (ONew y _ _) | LStart _ (OCopy y _) | LStart _ (OAssign y _) | LStart _ (ODestroy y) => bool_decide (x = y)
    | LStart _ (OSwap y z) => bool_decide (x = y) || bool_decide (x = z)
    | _ => false
    end.
  (** other threads do not use these names for their own objects *)
  Definition cforeign (t : tid) (l : conlab (A:=A)) : Prop :=
    match l with CEnv l => begins t l = false → ∀ x, own x → cwrites x l = false | CGo => True end.
  (** the calls [Concurrent.v] has *)
  Fixpoint flat {O} (p : prog (A:=A) (L:=L) (O:=O)) : Prop :=
    match p with
    | Ret _ => True
    | Call o k => match o with Core.OInner _ _ _ => False | _ => ∀ b, flat (k b) end
    | Look _ _ k => ∀ l n, flat (k l n)
    | Same _ _ _ _ k => ∀ b, flat (k b)
    end.
End Spec.

Section Sim.
  Context {K A R V L O : Type}.
  Context (P : Core.policy K A R V) (eqv : K → K → bool) (good : R → Prop).
  Context (Heq : equivalence eqv) (HP : policy_ok eqv good P).
  Context `{EqDecision L} (lab : R → L).
  Context (Hkey : ∀ r r', eqv (p_key P r) (p_key P r') = bool_decide (lab r = lab r') && bool_decide (p_kids P r = p_kids P r')).
  Context (own : var → Prop) (makes : A → nat → L → Prop).
  Context (Hmakes : ∀ a ks l, makes a (length ks) l → ∃ r, p_make P a ks = Some r ∧ p_kids P r = ks ∧ lab r = l).
  Context (t : tid) (Ht : t ≠ gc_tid).

  Notation state := (state (K:=K) (A:=A) (R:=R)).
  Notation instr := (instr (K:=K) (A:=A) (R:=R)).
  Notation label := (label (A:=A)).
  Notation Inv := (Inv P eqv good).
  Notation cnt := (cnt P).
  Notation step := (step P eqv).
  Notation run := (run P eqv).
  Notation fits := (fits P eqv).
  Notation goalof := (goalof P).
  Notation reachable := (reachable P eqv).
  Notation cshows := (cshows P lab).
  Notation cdenotes := (cdenotes P lab).
  Notation cagrees := (cagrees P lab own).
  Notation prog := (prog (A:=A) (L:=L) (O:=O)).
  Notation plain := (plain (O:=O) own makes true).
  Notation plain' := (Client.plain (O:=O) own makes).
  Notation safe := (safe (O:=O) own makes).
  Notation cpstep := (cpstep P eqv lab t).
  Notation cprun := (cprun P eqv lab t).
  Implicit Types (s : state) (M : gmap var (tree L)) (i : instr) (l : label).

  (** ** what steps keep *)
  Lemma cshows_step s l s' T : Inv s → step s l = Next s' → ∀ h, 0 < cnt s h → cshows s h T → cshows s' h T.
  Proof.
    intros HI Hs. induction T as [lb ts IH] using tree_ind'. intros h Hc HT. inversion HT as [h0 n ts0 Hn Hts]; subst.
    destruct (rep_keep P eqv good HP s l s' h n HI Hs Hn Hc) as (n'&Hn'&E). rewrite <- E. constructor; [done|]. rewrite E.
    assert (Hk : ∀ a, a ∈ p_kids P (n_rep n) → 0 < cnt s a) by (intros a Ha; by eapply (cnt_kid P s h n a Hn)).
    clear -IH Hk Hts. revert IH Hk. induction Hts as [|a T ks ts Ha _ IHt]; intros IH Hk; constructor.
    - apply Forall_cons in IH as [H1 _]. apply H1; [apply Hk; left|done].
    - apply Forall_cons in IH as [_ H2]. apply IHt; [done|]. intros b Hb. apply Hk. by right.
  Qed.
  Lemma vars_keep s l s' x : Inv s → step s l = Next s' → cwrites x l = false → vars s !! x ≠ Some None → vars s' !! x = vars s !! x.
  Proof.
    intros HI Hs Hw Hx. destruct l as [u o|u thr| |a|]; simpl in Hs.
    - case_decide; [done|]. destruct (stack s u) eqn:E; [|done].
      destruct o as [y p ys|y z|y z|y z|y|y]; simpl in Hs, Hw; unfold add_ref in Hs; repeat case_match; simplify_eq; simpl;
        try apply orb_false_iff in Hw as [Hw1%bool_decide_eq_false Hw2%bool_decide_eq_false]; try apply bool_decide_eq_false in Hw;
        rewrite ?lookup_insert_ne, ?lookup_delete_ne by congruence; done.
    - destruct (stack s u) as [|i rest] eqn:E; [done|]. destruct (exec_goal P eqv s u i rest thr s' Hs) as [Hg _].
      assert (Hm : making x i = 0).
      { destruct (making x i) eqn:Em; [done|]. destruct Hx. eapply (making_goal P eqv good s u); [done|rewrite E; left|lia]. }
      destruct i as [y p [|z ys] got|y p r|y h' p ks k|y h' ks k|y h' ks k|h'|y h' k|y|y h'|y z hx hy|y z hx hy|y z hx hy|h' j|h'|h'|h'];
        cbn [goal_step] in Hg; try (destruct Hg as [-> _]; done); try (destruct Hg as (?&_&->&_); done); destruct Hg as [-> _]; simpl in Hm;
        unfold at_ in Hm; repeat case_decide; try done; rewrite ?lookup_insert_ne, ?lookup_delete_ne by congruence; done.
    - repeat case_match; simplify_eq; done.
    - repeat case_match; simplify_eq; done.
    - repeat case_match; simplify_eq; done.
  Qed.
  Definition label_tid l : tid := match l with LStart u _ | LRun u _ => u | _ => gc_tid end.
  Lemma step_other s l s' u : step s l = Next s' → label_tid l ≠ u → stack s' u = stack s u.
  Proof.
    intros Hs Hu. destruct l as [v o|v thr| |a|]; simpl in Hs, Hu.
    - case_decide; [done|]. destruct (stack s v) eqn:E; [|done]. by apply (start_stack s v o s' E Hs).
    - destruct (stack s v) as [|i rest] eqn:E; [done|]. by apply (proj2 (exec_goal P eqv s v i rest thr s' Hs)).
    - repeat case_match; by simplify_eq.
    - repeat case_match; simplify_eq. rewrite stack_set, decide_False by done. done.
    - repeat case_match; by simplify_eq.
  Qed.
  Lemma denotes_var s x o : cdenotes s x o → vars s !! x ≠ Some None.
  Proof. destruct o as [T|]; simpl; [|by intros ->]. intros ([h r]&(Hx&_)%value_inv&_). by rewrite Hx. Qed.
  Lemma denotes_keep s l s' x o : Inv s → step s l = Next s' → vars s' !! x = vars s !! x → cdenotes s x o → cdenotes s' x o.
  Proof.
    intros HI Hs Hv. destruct o as [T|]; simpl; [|congruence]. intros ([h r]&(Hx&n&Hn&<-)%value_inv&HT). simpl in HT.
    pose proof (cnt_var P s x h Hx) as Hc. destruct (rep_keep P eqv good HP s l s' h n HI Hs Hn Hc) as (n'&Hn'&E).
    exists (h, n_rep n'). split; [unfold value_of; by rewrite Hv, Hx, Hn'|]. by apply (cshows_step s l s' T HI Hs h).
  Qed.
  Lemma denotes_step s l s' x o : Inv s → step s l = Next s' → cwrites x l = false → cdenotes s x o → cdenotes s' x o.
  Proof. intros HI Hs Hw Hd. eapply denotes_keep; [done..| |done]. eapply vars_keep; [done..|]. by eapply denotes_var. Qed.
  Lemma agrees_keep s l s' M : Inv s → step s l = Next s' → (∀ x, own x → cwrites x l = false) → cagrees s M → cagrees s' M.
  Proof. intros HI Hs Hw [H1 H2]. split; [|done]. intros x Hx. eapply denotes_step; eauto. Qed.
  Lemma live_denotes s x T : cdenotes s x (Some T) → ∃ h, vars s !! x = Some (Some h) ∧ cshows s h T.
  Proof. intros ([h r]&(Hx&_)%value_inv&HT). eauto. Qed.
  Lemma denotes_live s x h T : vars s !! x = Some (Some h) → cshows s h T → cdenotes s x (Some T).
  Proof. intros Hx HT. inversion HT as [h0 n ts Hn Hts]; subst. exists (h, n_rep n). split; [unfold value_of; by rewrite Hx, Hn|done]. Qed.
  Lemma live_some s x h : live s x = Some h ↔ vars s !! x = Some (Some h).
  Proof. unfold live. destruct (vars s !! x) as [[?|]|]; naive_solver. Qed.

  (** ** steps of the thread itself *)
  Lemma own_step s thr s' : step s (LRun t thr) = Next s' →
    ∃ i rest, stack s t = i :: rest ∧ goal_step P s s' i (omap goalof rest) (omap goalof (stack s' t)) ∧
      (∀ z h, IRead z h ∈ stack s' t → IRead z h ∈ rest).
  Proof.
    intros Hs. simpl in Hs. destruct (stack s t) as [|i rest] eqn:E; [done|]. exists i, rest. split; [done|].
    split; [by apply (exec_goal P eqv s t i rest thr s' Hs)|]. intros z h.
    assert (Hs0 : ∀ s1 new, stack (set_stack t new s1) t = new) by (intros; by rewrite stack_set, decide_True).
    assert (Hl : ∀ s1 new e, stack (add_log e (set_stack t new s1)) t = new).
    { intros. unfold stack. simpl. by rewrite lookup_insert. }
    assert (Hc : ∀ s1 new e, stack (set_clock e (set_stack t new s1)) t = new).
    { intros. unfold stack. simpl. by rewrite lookup_insert. }
    assert (Hr : ∀ (ks : list addr), IRead z h ∉ map (IRelease (K:=K) (A:=A) (R:=R)) ks) by (intros ks (?&?&_)%elem_of_list_fmap; done).
    destruct i as [x p [|y ys] got|x p r|x h' p ks k|x h' ks k|x h' ks k|h'|x h' k|x|x h'|x y hx hy|x y hx hy|x y hx hy|h' [|j]|h'|h'|h'];
      cbn [Concurrent.exec] in Hs; unfold add_ref, release in Hs; repeat case_match; simplify_eq; rewrite ?Hs0, ?Hl, ?Hc; intros Hin;
      repeat first [apply elem_of_app in Hin as [Hin|Hin]|apply elem_of_cons in Hin as [Hin|Hin]]; try done; by apply Hr in Hin.
  Qed.
  Lemma quiet_goal s s' i g g' : goalof i = None → goal_step P s s' i g g' → vars s' = vars s ∧ g' = g.
  Proof. intros Hi Hg. destruct i; simplify_eq; cbn [goal_step] in Hg; destruct Hg as [Ev Hg]; split; done. Qed.

  (** ** the simulation *)
  Definition but (X : var → Prop) s M : Prop := (∀ y, own y → ¬ X y → cdenotes s y (M !! y)) ∧ ∀ y, is_Some (M !! y) → own y.
  Definition reads s : Prop := ∀ x h, IRead x h ∈ stack s t → own x ∧ vars s !! x = Some (Some h).
  Definition calm s : Prop := omap goalof (stack s t) = [] ∧ reads s.
  (** where a creation is *)
  Definition under s x (a : A) ys ks (r : R) : Prop :=
    (∃ ys1 ys2 ks1 ks2, ys = ys1 ++ ys2 ∧ ks = ks1 ++ ks2 ∧ length ys1 = length ks1 ∧ stack s t = [IMake x a ys2 ks1]) ∨
    omap goalof (stack s t) = [GKey x (p_key P r)] ∨
    omap goalof (stack s t) = [GAbort x] ∨
    (omap goalof (stack s t) = [] ∧ (vars s !! x = None ∨ ∃ h, vars s !! x = Some (Some h) ∧ fits s h (p_key P r))).
  Definition waits s (o : Core.op (A:=A)) (k : bool → prog) M : Prop :=
    match o with
    | Core.ONew x a ys => ∃ ts lb r ks, own x ∧ M !! x = None ∧ Forall2 (λ y T, M !! y = Some T) ys ts ∧ makes a (length ts) lb ∧
        but (eq x) s M ∧ lab r = lb ∧ p_kids P r = ks ∧ p_make P a ks = Some r ∧ Forall2 (λ y h, vars s !! y = Some (Some h)) ys ks ∧ under s x a ys ks r
    | Core.OSwap x y => ∃ T U, M !! x = Some T ∧ M !! y = Some U ∧
        ((∃ hx hy, x ≠ y ∧ omap goalof (stack s t) = [GSwap x y hx hy] ∧ (∀ z h, IRead z h ∉ stack s t) ∧
            cshows s hx T ∧ cshows s hy U ∧ but (λ z, z = x ∨ z = y) s M) ∨
         calm s ∧ cagrees s (<[y:=T]> (<[x:=U]> M)))
    | Core.OInner _ _ _ => False
    | _ => ∃ M', plain' false (Call o k, M) (k true, M') ∧ calm s ∧ cagrees s M'
    end.
  Definition sim (c : state * bool * prog) M : Prop :=
    let '(s, w, p) := c in
    reachable s ∧ if w : bool then ∃ o k, p = Call o k ∧ waits s o k M else stack s t = [] ∧ cagrees s M.

  Lemma reach_step s l s' : reachable s → step s l = Next s' → reachable s'.
  Proof. intros [ls Hr] Hs. exists (ls ++ [l]). rewrite (run_app P eqv), Hr. simpl. by rewrite Hs. Qed.
  Lemma calm_step s l s' : Inv s → step s l = Next s' → begins t l = false → (∀ x, own x → cwrites x l = false) → calm s → calm s'.
  Proof.
    intros HI Hs Hb Hw [Hg Hr]. destruct (decide (label_tid l = t)) as [E|E].
    - destruct l as [u o|u thr| |a|]; simpl in E; [subst u; simpl in Hb; by rewrite bool_decide_true in Hb|subst u|congruence..].
      destruct (own_step s thr s' Hs) as (i&rest&Est&Hgs&Hrd). unfold calm, reads in *. rewrite Est in Hg, Hr. cbn [omap list_omap] in Hg.
      destruct (goalof i) eqn:Ei; [done|]. destruct (quiet_goal _ _ _ _ _ Ei Hgs) as [Ev ->]. split; [done|]. intros x h Hin.
      rewrite Ev. apply Hr. right. by apply Hrd.
    - unfold calm, reads. rewrite (step_other s l s' t Hs E). split; [done|]. intros x h Hin. destruct (Hr x h Hin) as [Ho Hx].
      split; [done|]. rewrite (vars_keep s l s' x HI Hs); [done|by apply Hw|by rewrite Hx].
  Qed.
  Lemma under_step s l s' x a ys ks r : Inv s → step s l = Next s' → begins t l = false → (∀ x, own x → cwrites x l = false) →
    own x → p_make P a ks = Some r → Forall2 (λ y h, vars s !! y = Some (Some h)) ys ks → under s x a ys ks r → under s' x a ys ks r.
  Proof.
    intros HI Hs Hb Hw Hx Hmk Hys HU. destruct (decide (label_tid l = t)) as [E|E].
    - destruct l as [u o|u thr| |a'|]; simpl in E; [subst u; simpl in Hb; by rewrite bool_decide_true in Hb|subst u|congruence..].
      destruct (own_step s thr s' Hs) as (i&rest&Est&Hgs&_). assert (Htop : i ∈ stack s t) by (rewrite Est; left).
      destruct HU as [(ys1&ys2&ks1&ks2&->&->&Hln&E1)|[HU|[HU|[HU Hv]]]].
      + rewrite Est in E1. injection E1 as -> ->. apply Forall2_app_inv in Hys as [_ Hys]; [|done]. destruct ys2 as [|y ys2].
        * inversion Hys; subst. rewrite app_nil_r in Hmk. cbn [goal_step] in Hgs. rewrite Hmk in Hgs. right; left. by destruct Hgs.
        * inversion Hys as [|y0 h ys0 ks0 Hy Hys0]; subst. left. exists (ys1 ++ [y]), ys2, (ks1 ++ [h]), ks0.
          rewrite <- !app_assoc, !app_length. split_and!; [done|done|simpl; lia|]. simpl in Hs. rewrite Est in Hs. cbn [Concurrent.exec] in Hs.
          rewrite (proj2 (live_some s y h) Hy) in Hs. unfold add_ref in Hs. destruct (ents s !! h); simplify_eq. by rewrite stack_set, decide_True.
      + rewrite Est in HU. cbn [omap list_omap] in HU. destruct (goalof i) as [g|] eqn:Ei.
        * injection HU as -> Hr0. rewrite Hr0 in Hgs. destruct i; try discriminate Ei; injection Ei as -> E2; cbn [goal_step] in Hgs.
          -- destruct Hgs as [_ [Hg|Hg]]; [by right; right; left|right; left]. rewrite Hg. simpl. by rewrite E2.
          -- destruct Hgs as [_ [Hg|Hg]]; [by right; right; left|right; left]. rewrite Hg. simpl. by rewrite E2.
          -- destruct Hgs as [_ Hg]. right; left. rewrite Hg. simpl. by rewrite E2.
          -- destruct Hgs as [_ Hg]. right; left. rewrite Hg. simpl. by rewrite E2.
          -- destruct Hgs as [Ev Hg]. right; right; right. split; [done|]. right. exists h. split; [by rewrite Ev, lookup_insert|].
             pose proof (i_ok _ _ _ _ HI t _ Htop) as Hf. simpl in Hf. rewrite <- E2. eapply (fits_keep P eqv good Heq HP s _ s'); [done..|].
             eapply cnt_own; [exact Htop|]. simpl. rewrite at_eq. lia.
        * destruct (quiet_goal _ _ _ _ _ Ei Hgs) as [_ Hg]. right; left. congruence.
      + rewrite Est in HU. cbn [omap list_omap] in HU. destruct (goalof i) as [g|] eqn:Ei.
        * injection HU as -> Hr0. rewrite Hr0 in Hgs. destruct i; try discriminate Ei; injection Ei as ->; cbn [goal_step] in Hgs.
          destruct Hgs as [Ev Hg]. right; right; right. split; [done|]. left. by rewrite Ev, lookup_delete.
        * destruct (quiet_goal _ _ _ _ _ Ei Hgs) as [_ Hg]. right; right; left. congruence.
      + rewrite Est in HU. cbn [omap list_omap] in HU. destruct (goalof i) as [g|] eqn:Ei; [done|]. destruct (quiet_goal _ _ _ _ _ Ei Hgs) as [Ev Hg].
        right; right; right. split; [congruence|]. rewrite Ev. destruct Hv as [Hv|(h&Hv&Hf)]; [by left|right]. exists h. split; [done|].
        eapply (fits_keep P eqv good Heq HP s _ s'); [done..|]. by eapply cnt_var.
    - unfold under. rewrite (step_other s l s' t Hs E). destruct HU as [HU|[HU|[HU|[HU Hv]]]]; [by left|by right; left|by right; right; left|].
      right; right; right. split; [done|]. assert (Ev : vars s' !! x = vars s !! x).
      { apply (vars_keep s l s' x HI Hs); [by apply Hw|]. destruct Hv as [->|(h&->&_)]; done. }
      rewrite Ev. destruct Hv as [Hv|(h&Hv&Hf)]; [by left|right]. exists h. split; [done|].
      eapply (fits_keep P eqv good Heq HP s _ s'); [done..|]. by eapply cnt_var.
  Qed.
  Lemma but_step X s l s' M : Inv s → step s l = Next s' → (∀ x, own x → cwrites x l = false) → but X s M → but X s' M.
  Proof. intros HI Hs Hw [H1 H2]. split; [|done]. intros y Hy Hn. eapply denotes_step; [done|done|by apply Hw|by apply H1]. Qed.

  (** steps of the environment *)
  Lemma sim_env s w p l M s' : sim (s, w, p) M → begins t l = false → (∀ x, own x → cwrites x l = false) → step s l = Next s' → sim (s', w, p) M.
  Proof.
    intros [Hre Hw] Hst Hwr Hs. pose proof (reach_step s l s' Hre Hs) as Hre'. pose proof (reach_inv P eqv good Heq HP s Hre) as HI.
    split; [done|]. destruct w.
    - destruct Hw as (o&k&->&Hwt). exists o, k. split; [done|].
      destruct o as [x a ys|x y|x y|x y|x|x|x y path]; simpl in *;
        try (destruct Hwt as (M'&Hp&Hc&Hag); exists M'; split; [done|split; [by eapply calm_step|by eapply agrees_keep]]).
      + destruct Hwt as (ts&l'&r&ks&Hx&HM&Hts&Hmk&Hb&Hl&Hk&Hr&Hys&HU). exists ts, l', r, ks. split_and!; try done.
        * by eapply but_step.
        * apply Forall2_same_length_lookup. split; [by eapply Forall2_length|]. intros i y h Hi Hh.
          pose proof (Forall2_lookup_lr _ _ _ _ _ _ Hys Hi Hh) as Hlv. simpl in Hlv.
          destruct (Forall2_lookup_l _ _ _ _ _ Hts Hi) as (T&_&HT).
          rewrite (vars_keep s l s' y HI Hs); [done|apply Hwr; destruct Hb as [_ Hb2]; apply Hb2; eauto|by rewrite Hlv].
        * by eapply under_step.
      + destruct Hwt as (T&U&HT&HU&Hwt). exists T, U. split; [done|]. split; [done|].
        destruct Hwt as [(hx&hy&Hne&Hg&Hnr&HhT&HhU&Hb)|[Hc Hag]]; [|right; split; [by eapply calm_step|by eapply agrees_keep]].
        assert (Hin : GSwap x y hx hy ∈ omap goalof (stack s t)) by (rewrite Hg; left).
        destruct (goal_swap_cnt P s t x y hx hy Hin) as [Cx Cy].
        pose proof (cshows_step s l s' T HI Hs hx Cx HhT) as HhT'. pose proof (cshows_step s l s' U HI Hs hy Cy HhU) as HhU'.
        pose proof (but_step _ s l s' M HI Hs Hwr Hb) as Hb'.
        destruct (decide (label_tid l = t)) as [E|E].
        * destruct l as [u o|u thr| |a'|]; simpl in E; [subst u; simpl in Hst; by rewrite bool_decide_true in Hst|subst u|congruence..].
          destruct (own_step s thr s' Hs) as (i&rest&Est&Hgs&Hrd). rewrite Est in *.
          assert (Hnr' : ∀ z h, IRead z h ∉ stack s' t) by (intros z h Hz%Hrd; apply (Hnr z h); by right).
          cbn [omap list_omap] in Hg. destruct (goalof i) as [g|] eqn:Ei.
          -- injection Hg as -> Hr0. rewrite Hr0 in Hgs. destruct i; try discriminate Ei; injection Ei as -> -> -> ->; cbn [goal_step] in Hgs.
             ++ left. exists hx, hy. destruct Hgs as [_ Hg]. by split_and!.
             ++ left. exists hx, hy. destruct Hgs as [_ Hg]. by split_and!.
             ++ right. destruct Hgs as [Ev Hg]. split; [split; [done|intros z h Hz; by apply Hnr' in Hz]|]. destruct Hb' as [Hb1 Hb2]. split.
                ** intros z Hz. destruct (decide (z = y)) as [->|Hzy]; [rewrite lookup_insert; eapply denotes_live; [by rewrite Ev, lookup_insert|done]|].
                   rewrite lookup_insert_ne by done. destruct (decide (z = x)) as [->|Hzx];
                     [rewrite lookup_insert; eapply denotes_live; [by rewrite Ev, lookup_insert_ne, lookup_insert by done|done]|].
                   rewrite lookup_insert_ne by done. apply Hb1; [done|naive_solver].
                ** intros z [W HW]. destruct (decide (z = y)) as [->|Hzy]; [eauto|]. rewrite lookup_insert_ne in HW by done.
                   destruct (decide (z = x)) as [->|Hzx]; [eauto|]. rewrite lookup_insert_ne in HW by done. eauto.
          -- destruct (quiet_goal _ _ _ _ _ Ei Hgs) as [_ Hg']. left. exists hx, hy. split_and!; try done. congruence.
        * left. exists hx, hy. rewrite (step_other s l s' t Hs E). by split_and!.
      + done.
    - destruct Hw as [Hemp Hag]. split; [|by eapply agrees_keep].
      destruct (decide (label_tid l = t)) as [E|E]; [|rewrite <- Hemp; by eapply step_other].
      destruct l as [u o|u c| |a|]; simpl in E; [subst u; simpl in Hst; by rewrite bool_decide_true in Hst|subst u|congruence..].
      simpl in Hs. by rewrite Hemp in Hs.
  Qed.

  Lemma agrees_upd s s' x T M : cagrees s M → own x → cdenotes s' x (Some T) → (∀ y, own y → y ≠ x → cdenotes s y (M !! y) → cdenotes s' y (M !! y)) →
    cagrees s' (<[x:=T]> M).
  Proof.
    intros [H1 H2] Hx HT Hk. split.
    - intros y Hy. destruct (decide (y = x)) as [->|Hne]; [by rewrite lookup_insert|]. rewrite lookup_insert_ne by done. auto.
    - intros y [U HU]. destruct (decide (y = x)) as [->|Hne]; [done|]. rewrite lookup_insert_ne in HU by done. apply H2. eauto.
  Qed.

  (** the program goes on *)
  Lemma sim_start s o k M c : sim (s, false, Call o k) M → flat (Call o k) → plain (Call o k, M) c →
    ∃ o' s', cop o = Some o' ∧ step s (LStart t o') = Next s' ∧ sim (s', true, Call o k) M.
  Proof.
    intros [Hre [Hst Hag]] Hfl Hp. pose proof (reach_inv P eqv good Heq HP s Hre) as HI. pose proof Hag as [Ha1 Ha2].
    assert (Hlive : ∀ y T, M !! y = Some T → ∃ h n, vars s !! y = Some (Some h) ∧ cshows s h T ∧ ents s !! h = Some n ∧ 0 < cnt s h).
    { intros y T HT. destruct (live_denotes s y T) as (h&Hh&Hs); [rewrite <- HT; apply Ha1, Ha2; eauto|].
      destruct (present P eqv good s h HI (cnt_var P s y h Hh)) as (n&Hn&_). exists h, n. split_and!; try done. by eapply cnt_var. }
    assert (Hnone : ∀ y, own y → M !! y = None → vars s !! y = None) by (intros y Hy HN; specialize (Ha1 y Hy); by rewrite HN in Ha1).
    assert (Hnext : ∀ o' s', cop o = Some o' → start s t o' = Next s' → (step s (LStart t o') = Next s' → waits s' o k M) →
      ∃ o' s', cop o = Some o' ∧ step s (LStart t o') = Next s' ∧ sim (s', true, Call o k) M).
    { intros o' s' Ho Hs HW. assert (Hs1 : step s (LStart t o') = Next s') by (simpl; by rewrite decide_False, Hst by done).
      exists o', s'. split; [done|]. split; [done|]. split; [by eapply reach_step|]. exists o, k. split; [done|]. by apply HW. }
    assert (Hs0 : ∀ s1 new, stack (set_stack t new s1) t = new) by (intros; by rewrite stack_set, decide_True).
    assert (Hl0 : ∀ s1 new e, stack (add_log e (set_stack t new s1)) t = new).
    { intros. unfold stack. simpl. by rewrite lookup_insert. }
    assert (Hrel : ∀ s1 h, stack s1 t = [IRelease h] → calm s1).
    { intros s1 h E. unfold calm, reads. rewrite E. split; [done|]. by intros x h' [?|?%elem_of_nil]%elem_of_cons. }
    inversion Hp as [x a ys ts l k0 M0 Hx HM Hts Hmk E1 E2|x a ys ts l k0 M0 _ Hx HM Hts Hmk E1 E2|x y T k0 M0 Hx HM HT E1 E2|x y T U k0 M0 HT HU E1 E2
          |x y T U k0 M0 HT HU E1 E2|x T k0 M0 HT E1 E2|x T k0 M0 HT E1 E2|x y path T U k0 M0 Hx HM HT HU E1 E2| |]; simplify_eq.
    1,2: (assert (∃ ks, Forall2 (λ y h, vars s !! y = Some (Some h)) ys ks) as [ks Hks] by
        (clear -Hts Hlive; induction Hts as [|y T ys ts HT _ [ks IH]]; [by exists []|]; destruct (Hlive _ _ HT) as (h&_&Hh&_); exists (h :: ks); by constructor);
      assert (Hln : length ks = length ts) by (by rewrite <- (Forall2_length _ _ _ Hks), <- (Forall2_length _ _ _ Hts));
      pose proof Hmk as Hmk'; rewrite <- Hln in Hmk; destruct (Hmakes a ks l Hmk) as (r&Hr&Hkr&Hlr);
      eapply Hnext; [done|simpl; by rewrite (Hnone x Hx HM)|]; intros Hs; exists ts, l, r, ks;
      assert (Hne : ∀ y h, vars s !! y = Some (Some h) → y ≠ x) by (intros y h Hy ->; by rewrite (Hnone x Hx HM) in Hy);
      split_and!; try done;
      [split; [|done]; intros y Hy Hxy; apply (denotes_step s _ _ y (M !! y) HI Hs); [simpl; apply bool_decide_eq_false; congruence|by apply Ha1]
      |eapply Forall2_impl; [exact Hks|]; intros y h Hy; simpl; rewrite lookup_insert_ne; [done|by apply not_eq_sym, (Hne y h)]
      |left; exists [], ys, [], ks; by rewrite Hs0]).
    - destruct (Hlive _ _ HT) as (h&n&Hh&HhT&Hn&Hc).
      eapply Hnext; [done|simpl; rewrite (Hnone x Hx HM), (proj2 (live_some s y h) Hh); unfold add_ref; by rewrite Hn|]. intros Hs.
      eexists. split; [by eapply Pl_copy|]. split; [by split; [rewrite Hl0|intros ? ? ?; rewrite Hl0 in *; by apply elem_of_nil in H]|].
      apply (agrees_upd s _ x T M Hag Hx).
      + eapply denotes_live; [simpl; by rewrite lookup_insert|]. by apply (cshows_step s _ _ T HI Hs).
      + intros z _ Hne. apply (denotes_step s _ _ z _ HI Hs). simpl. by apply bool_decide_eq_false.
    - destruct (Hlive _ _ HU) as (h&n&Hh&HhT&Hn&Hc), (Hlive _ _ HT) as (hx&_&Hhx&_).
      eapply Hnext; [done|simpl; rewrite (proj2 (live_some s x hx) Hhx), (proj2 (live_some s y h) Hh); unfold add_ref; by rewrite Hn|]. intros Hs.
      eexists. split; [by eapply Pl_assign|]. split; [by eapply Hrel; rewrite Hl0|].
      apply (agrees_upd s _ x U M Hag); [eauto| |].
      + eapply denotes_live; [simpl; by rewrite lookup_insert|]. by apply (cshows_step s _ _ U HI Hs).
      + intros z _ Hne. apply (denotes_step s _ _ z _ HI Hs). simpl. by apply bool_decide_eq_false.
    - destruct (Hlive _ _ HT) as (hx&nx&Hhx&HhT&Hnx&Hcx), (Hlive _ _ HU) as (hy&ny&Hhy&HhU&Hny&Hcy).
      destruct (decide (x = y)) as [->|Hne].
      + eapply Hnext; [done|simpl; rewrite (proj2 (live_some s y hy) Hhy); unfold add_ref; rewrite Hny; by rewrite decide_True|]. intros Hs.
        exists T, U. split; [done|]. split; [done|]. right. split.
        * split; [by rewrite Hl0|]. intros ? ? Hin. rewrite Hl0 in Hin. by apply elem_of_list_singleton in Hin.
        * assert (T = U) as -> by congruence. rewrite insert_insert, insert_id by done. split; [|done]. intros z Hz.
          apply (denotes_keep s _ _ z _ HI Hs); [done|by apply Ha1].
      + eapply Hnext; [done|simpl; rewrite (proj2 (live_some s x hx) Hhx), (proj2 (live_some s y hy) Hhy); unfold add_ref; rewrite Hnx; by rewrite decide_False|]. intros Hs.
        exists T, U. split; [done|]. split; [done|]. left. exists hx, hy. split; [done|]. rewrite Hs0. split; [done|]. split; [|split_and!].
        * intros z h Hz. by apply elem_of_list_singleton in Hz.
        * by apply (cshows_step s _ _ T HI Hs).
        * by apply (cshows_step s _ _ U HI Hs).
        * split; [|done]. intros z Hz Hn. apply (denotes_step s _ _ z _ HI Hs); [|by apply Ha1]. simpl. apply orb_false_iff. split; apply bool_decide_eq_false; naive_solver.
    - destruct (Hlive _ _ HT) as (h&n&Hh&HhT&Hn&Hc).
      eapply Hnext; [done|simpl; by rewrite (proj2 (live_some s x h) Hh)|]. intros Hs.
      eexists. split; [by eapply Pl_destroy|]. split; [by eapply Hrel; rewrite Hl0|]. split.
      + intros z Hz. destruct (decide (z = x)) as [->|Hzx]; [rewrite lookup_delete; simpl; by rewrite lookup_delete|].
        rewrite lookup_delete_ne by done. apply (denotes_step s _ _ z _ HI Hs); [|by apply Ha1]. simpl. by apply bool_decide_eq_false.
      + intros z [W HW]. apply lookup_delete_Some in HW as [_ HW]. eauto.
    - destruct (Hlive _ _ HT) as (h&n&Hh&HhT&Hn&Hc).
      eapply Hnext; [done|simpl; rewrite (proj2 (live_some s x h) Hh); unfold add_ref; by rewrite Hn|]. intros Hs.
      exists M. split; [by eapply Pl_get|]. split.
      + split; [by rewrite Hs0|]. intros z h' Hz. rewrite Hs0 in Hz. apply elem_of_cons in Hz as [?|Hz]; [done|].
        apply elem_of_list_singleton in Hz. injection Hz as -> ->. split; [eauto|done].
      + eapply (agrees_keep s _ _ M HI Hs); [|done]. done.
  Qed.
  Lemma sim_end s o k M : sim (s, true, Call o k) M → stack s t = [] →
    ∃ M', plain' (negb (made_it s o)) (Call o k, M) (k (made_it s o), M') ∧ sim (s, false, k (made_it s o)) M'.
  Proof.
    intros [Hre (o'&k'&E&Hw)] Hst. injection E as <- <-. pose proof (reach_inv P eqv good Heq HP s Hre) as HI.
    destruct o as [x a ys|x y|x y|x y|x|x|x y path]; simpl in Hw; cbn [made_it];
      try (destruct Hw as (M'&Hp&_&Hag); exists M'; split; [done|split; [done|split; done]]).
    - destruct Hw as (ts&l&r&ks&Hx&HM&Hts&Hmk&[Hb1 Hb2]&Hl&Hk&_&Hys&HU). unfold under in HU. rewrite Hst in HU.
      destruct HU as [(?&?&?&?&_&_&_&?)|[?|[?|[_ [Hno|(h&Hvx&n&Hn&Ek)]]]]]; try done.
      + unfold live. rewrite Hno. exists M. split; [by eapply Pl_throw|]. split; [done|]. split; [done|]. split; [|done].
        intros y Hy. destruct (decide (x = y)) as [<-|Hne]; [by rewrite HM|by apply Hb1].
      + rewrite Hkey in Ek. apply andb_true_iff in Ek as [El%bool_decide_eq_true Ek%bool_decide_eq_true].
        rewrite (proj2 (live_some s x h) Hvx). exists (<[x:=Tree l ts]> M). split; [by eapply Pl_new|]. split; [done|]. split; [done|]. split.
        * intros y Hy. destruct (decide (x = y)) as [<-|Hne]; [rewrite lookup_insert|rewrite lookup_insert_ne by done; by apply Hb1].
          eapply denotes_live; [done|]. rewrite <- Hl, <- El. constructor; [done|].
          rewrite Ek, Hk. apply Forall2_same_length_lookup. split; [by rewrite <- (Forall2_length _ _ _ Hys), <- (Forall2_length _ _ _ Hts)|].
          intros i a' T Ha HT. destruct (Forall2_lookup_r _ _ _ _ _ Hts HT) as (y&Hiy&HyT).
          pose proof (Forall2_lookup_lr _ _ _ _ _ _ Hys Hiy Ha) as Hly. simpl in Hly.
          assert (Hyo : own y) by eauto. assert (Hyx : x ≠ y) by congruence. specialize (Hb1 y Hyo Hyx). rewrite HyT in Hb1.
          destruct (live_denotes s y T Hb1) as (h'&Hh'&HT'). by simplify_eq.
        * intros y [W HW]. destruct (decide (x = y)) as [<-|Hne]; [done|]. rewrite lookup_insert_ne in HW by done. eauto.
    - destruct Hw as (T&U&HT&HU&[(hx&hy&_&Hg&_)|[_ Hag]]); [by rewrite Hst in Hg|]. eexists. split; [by eapply Pl_swap|]. by split.
    - done.
  Qed.

  (** ** reading *)
  Lemma cshows_fun s T : ∀ a U, cshows s a T → cshows s a U → T = U.
  Proof.
    induction T as [lb ts IH] using tree_ind'. intros a U H1 H2. inversion H1 as [h n ts1 Hn Hts]; subst. inversion H2 as [h n' us Hn' Hus]; subst.
    assert (n' = n) as -> by congruence. f_equal. clear -IH Hts Hus. revert us Hus. induction Hts as [|b T ks ts Hb _ IHt]; intros us Hus; inversion Hus; subst; [done|].
    apply Forall_cons in IH as [I1 I2]. f_equal; [by eapply I1|by apply IHt].
  Qed.
  Lemma cshows_inj s T : Inv s → ∀ a b, cshows s a T → cshows s b T → a = b.
  Proof.
    intros HI. induction T as [lb ts IH] using tree_ind'. intros a b H1 H2. inversion H1 as [h n ts1 Hn Hts]; subst. inversion H2 as [h m ts2 Hm Hus El]; subst.
    apply (i_uniq _ _ _ _ HI a b n m Hn Hm). rewrite Hkey. rewrite (bool_decide_true (lab _ = _)) by done. simpl. apply bool_decide_eq_true.
    clear -IH Hts Hus. revert IH Hus. generalize (p_kids P (n_rep m)). induction Hts as [|c T ks ts Hc _ IHt]; intros ms IH Hus; inversion Hus; subst; [done|].
    apply Forall_cons in IH as [I1 I2]. f_equal; [by eapply I1|by apply IHt].
  Qed.
  Lemma within_shows s path : Inv s → ∀ h T U, 0 < cnt s h → cshows s h T → subtree T path = Some U →
    ∃ h' n, within P s h path = Some (h', n_rep n) ∧ ents s !! h' = Some n ∧ cshows s h' U ∧ 0 < cnt s h'.
  Proof.
    intros HI. induction path as [|j path IH]; intros h T U Hc HT HU; destruct (present P eqv good s h HI Hc) as (n&Hn&v&Hv); simpl in *.
    - simplify_eq. exists h, n. unfold stored. by rewrite Hn, Hv.
    - inversion HT as [h0 n0 ts Hn0 Hts]; subst. assert (n0 = n) as -> by congruence. unfold stored. rewrite Hn, Hv.
      destruct (ts !! j) as [W|] eqn:Hj; [|done]. destruct (Forall2_lookup_r _ _ _ _ _ Hts Hj) as (a&Ha&HaW). rewrite Ha.
      apply (IH a W U); [|done|done]. eapply (cnt_kid P s h n a Hn). by eapply elem_of_list_lookup_2.
  Qed.
  Lemma sim_found s x path M T U : Inv s → cagrees s M → M !! x = Some T → subtree T path = Some U →
    ∃ h n, found P s x path = Some (h, n_rep n) ∧ ents s !! h = Some n ∧ cshows s h U.
  Proof.
    intros HI [Ha1 Ha2] HT Hsub. destruct (live_denotes s x T) as (h&Hh&HTh); [rewrite <- HT; apply Ha1, Ha2; eauto|].
    destruct (within_shows s path HI h T U (cnt_var P s x h Hh) HTh Hsub) as (h'&n&Hw&Hn&HU&_). exists h', n. split; [|done].
    unfold found. by rewrite (proj2 (live_some s x h) Hh).
  Qed.
  Lemma sim_look s x path k M c : sim (s, false, Look x path k) M → plain (Look x path k, M) c →
    ∃ lb n, look P lab s x path = Some (lb, n) ∧ (∀ thr, plain' thr (Look x path k, M) (k lb n, M)) ∧ sim (s, false, k lb n) M.
  Proof.
    intros [Hre [Hst Hag]] Hp. inversion Hp as [| | | | | | | |x' path' T l us k' M' HT Hsub|]; simplify_eq. exists l, (length us).
    destruct (sim_found s x path M T (Tree l us)) as (h&n&Hf&Hn&HU); [by apply (reach_inv P eqv good Heq HP)|done..|].
    split; [|split; [intros thr; by econstructor|done]]. unfold look. rewrite Hf. inversion HU as [h0 n0 us0 Hn0 Hus]; subst.
    assert (n0 = n) as -> by congruence. by rewrite (Forall2_length _ _ _ Hus).
  Qed.
  Lemma sim_same s x path y path' k M c : sim (s, false, Same x path y path' k) M → plain (Same x path y path' k, M) c →
    ∃ b, same P s x path y path' = Some b ∧ (∀ thr, plain' thr (Same x path y path' k, M) (k b, M)) ∧ sim (s, false, k b) M.
  Proof.
    intros [Hre [Hst Hag]] Hp. pose proof (reach_inv P eqv good Heq HP s Hre) as HI.
    inversion Hp as [| | | | | | | | |x' p1 y' p2 T U T' U' k' b M' HT HT' HU HU' Hb]; simplify_eq.
    destruct (sim_found s x path M T T' HI Hag HT HT') as (h&n&Hf&Hn&Hs1), (sim_found s y path' M U U' HI Hag HU HU') as (h'&n'&Hf'&Hn'&Hs2).
    exists b. split; [|split; [intros thr; by econstructor|done]]. unfold same. rewrite Hf, Hf'. f_equal.
    destruct b; [apply bool_decide_eq_true|apply bool_decide_eq_false].
    - assert (T' = U') as <- by (by apply Hb). by apply (cshows_inj s T' HI).
    - intros <-. assert (T' = U') as E by (by eapply cshows_fun). by apply Hb in E.
  Qed.
  Lemma plain_more b c c' : plain' b c c' → plain c c'.
  Proof. destruct 1; by econstructor. Qed.
  Lemma flat_plain c c' : flat c.1 → plain c c' → flat c'.1.
  Proof. intros Hf Hp. inversion Hp; subst; simpl in *; eauto; done. Qed.
  Lemma flat_steps c c' : flat c.1 → rtc plain c c' → flat c'.1.
  Proof. intros Hf Hr. induction Hr as [|c c1 c' H1 _ IH]; [done|]. by eapply IH, flat_plain. Qed.

  (** ** C72 *)

  (** Whatever other threads and the garbage collector do: the program is where
      it would be with plain values, its objects have the values they would
      have, and nothing goes wrong. *)
  Lemma sim_step c M (e : conlab) : sim c M → safe c.2 M → flat c.2 → cforeign own t e →
    ∃ c' M', cpstep c e = Some c' ∧ sim c' M' ∧ rtc plain (c.2, M) (c'.2, M').
  Proof.
    destruct c as [[s w] p]. intros Hsim Hsafe Hfl Hf. cbn [snd] in *. destruct e as [l|].
    - cbn [ConClient.cpstep]. destruct (begins t l) eqn:Est; [by exists (s, w, p), M|].
      pose proof Hsim as [Hre _]. pose proof (reach_inv P eqv good Heq HP s Hre) as HI.
      pose proof (step_inv P eqv good Heq HP s l HI) as Hok.
      destruct (step s l) as [s'| |] eqn:E; [|by exists (s, w, p), M|done]. exists (s', w, p), M. split; [done|]. split; [|done].
      eapply sim_env; [done|done|by apply Hf|done].
    - cbn [ConClient.cpstep]. destruct p as [o|o k|x path k|x path y path' k]; cbn [cgo]; [by exists (s, w, Ret o), M| | |].
      + destruct w.
        * destruct (stack s t) as [|i rest] eqn:Est; [|by exists (s, true, Call o k), M].
          destruct (sim_end s o k M Hsim Est) as (M'&Hp&Hs'). exists (s, false, k (made_it s o)), M'. split; [done|]. split; [done|]. by eapply rtc_once, plain_more.
        * destruct (Hsafe _ _ (rtc_refl _ _)) as [[? ?]|[c Hc]]; [done|]. destruct (sim_start s o k M c Hsim Hfl Hc) as (o'&s'&->&->&Hsim').
          by exists (s', true, Call o k), M.
      + destruct w; [destruct Hsim as (_&o'&k'&?&_); done|].
        destruct (Hsafe _ _ (rtc_refl _ _)) as [[? ?]|[c Hc]]; [done|]. destruct (sim_look s x path k M c Hsim Hc) as (l&n&->&Hp&Hs').
        exists (s, false, k l n), M. split; [done|]. split; [done|]. by apply rtc_once.
      + destruct w; [destruct Hsim as (_&o'&k'&?&_); done|].
        destruct (Hsafe _ _ (rtc_refl _ _)) as [[? ?]|[c Hc]]; [done|]. destruct (sim_same s x path y path' k M c Hsim Hc) as (b&->&Hp&Hs').
        exists (s, false, k b), M. split; [done|]. split; [done|]. by apply rtc_once.
  Qed.
  Lemma safe_plain p M p' M' : safe p M → rtc plain (p, M) (p', M') → safe p' M'.
  Proof. intros H Hr p1 M1 H1. apply H. by etrans. Qed.
  Lemma sim_run ls : ∀ c M, sim c M → safe c.2 M → flat c.2 → Forall (cforeign own t) ls →
    ∃ c' M', cprun c ls = Some c' ∧ sim c' M' ∧ rtc plain (c.2, M) (c'.2, M').
  Proof.
    induction ls as [|l ls IH]; intros c M Hs Hsafe Hfl Hf; [by exists c, M|]. apply Forall_cons in Hf as [Hl Hf].
    destruct (sim_step c M l Hs Hsafe Hfl Hl) as (c1&M1&Hp&Hs1&Hr1). cbn [ConClient.cprun]. rewrite Hp.
    destruct (IH c1 M1 Hs1 (safe_plain _ _ _ _ Hsafe Hr1)) as (c2&M2&H2&Hs2&Hr2); [by apply (flat_steps (c.2, M) _ Hfl Hr1)|done|]. exists c2, M2. split; [done|]. split; [done|]. by etrans.
  Qed.
  Theorem C72_transparent s (p : prog) M ls :
    reachable s → stack s t = [] → cagrees s M → safe p M → flat p → Forall (cforeign own t) ls →
    ∃ s' w p' M', cprun (s, false, p) ls = Some (s', w, p') ∧ reachable s' ∧ rtc plain (p, M) (p', M') ∧
      (if w then ∃ o k, p' = Call o k else stack s' t = [] ∧ cagrees s' M').
  Proof.
    intros Hre Hst Hag Hsafe Hfl Hf. destruct (sim_run ls (s, false, p) M) as ([[s' w] p']&M'&Hp&[Hre' Hs']&Hr); [done|done|done|done|].
    exists s', w, p', M'. split; [done|]. split; [done|]. split; [done|]. destruct w; [|done]. destruct Hs' as (o&k&->&_). eauto.
  Qed.

  (** ** completion *)
  Definition stage (i : instr) : nat :=
    match i with IVisit _ _ _ _ _ => 3 | IAddRef _ _ _ _ => 2 | ILeave _ _ _ _ => 1 | ITest _ => 2 | IErase _ | ISkip _ => 1 | _ => 0 end.
  Lemma stage_release (ks : list addr) : lsum stage (map IRelease ks) = 0.
  Proof. by apply lsum_release0. Qed.
  Lemma owner_step s u thr s' a n : Inv s → heads s → ents s !! a = Some n → n_own n = Some u → step s (LRun u thr) = Next s' →
    tsum stage s' < tsum stage s.
  Proof.
    intros HI Hh Hn Ho Hs. pose proof (i_acc _ _ _ _ HI a u) as Hac. rewrite Hn, Ho in Hac. unfold has in Hac. rewrite decide_True in Hac by done.
    specialize (Hh u). simpl in Hs. destruct (stack s u) as [|i rest] eqn:E; [done|]. simpl in Hh.
    assert (Hz : lsum (acc a) rest = 0).
    { clear -Hh. induction Hh as [|j rest Hj _ IH]; [done|]. rewrite lsum_cons, IH. by rewrite Hj. }
    rewrite lsum_cons, Hz in Hac.
    assert (Hset : ∀ s1 new, tsum stage (set_stack u new s1) + lsum stage (stack s1 u) = tsum stage s1 + lsum stage new) by (intros; apply tsum_set).
    assert (Hgo : ∀ s1 s2 new, stacks s1 = stacks s → stacks s2 = stacks (set_stack u new s1) → lsum stage new < lsum stage (i :: rest) → tsum stage s2 < tsum stage s).
    { intros s1 s2 new E1 E2 Hlt. pose proof (Hset s1 new) as Hq. unfold stack in Hq. rewrite E1 in Hq. change (default [] (stacks s !! u)) with (stack s u) in Hq.
      rewrite E in Hq. unfold tsum in *. rewrite E2. rewrite E1 in Hq. lia. }
    destruct i as [x p [|y ys] got|x p r|x h p ks k|x h ks k|x h ks k|h|x h k|x|x h|x y hx hy|x y hx hy|x y hx hy|h [|j]|h|h|h];
      simpl in Hac; try lia; cbn [Concurrent.exec] in Hs; unfold add_ref in Hs; repeat case_match; simplify_eq;
      (eapply Hgo; [| |]; [|reflexivity|]; [done|]); rewrite ?lsum_app, ?lsum_cons, ?stage_release; simpl; try lia.
  Qed.
  (** steps of calls that have begun, none of which throws *)
  Definition runs l : Prop := match l with LRun _ thr => thr = false | _ => False end.
  Definition cquiet (l : conlab (A:=A)) : Prop := match l with CEnv l => runs l | CGo => True end.
  Lemma sim_runs ls w p M : ∀ s s', Forall runs ls → sim (s, w, p) M → run s ls = Next s' →
    sim (s', w, p) M ∧ cprun (s, w, p) (CEnv <$> ls) = Some (s', w, p).
  Proof.
    induction ls as [|l ls IH]; intros s s' Hr Hsim Hs; cbn [Concurrent.run] in Hs; [by simplify_eq|]. apply Forall_cons in Hr as [Hl Hr].
    cbn [fmap list_fmap ConClient.cprun ConClient.cpstep]. destruct l as [|u thr| | |]; [done| |done..]. cbn [begins].
    destruct (step s (LRun u thr)) as [s1| |] eqn:E; [|by apply IH|done]. apply IH; [done| |done]. by eapply (sim_env s w p (LRun u thr)).
  Qed.
  Lemma drain w p M (c : nat) : ∀ s, tsum stage s ≤ c → sim (s, w, p) M →
    ∃ ls s', Forall runs ls ∧ run s ls = Next s' ∧ ∀ a n, ents s' !! a = Some n → n_own n = None.
  Proof.
    induction c as [|c IH]; intros s Hc Hsim; pose proof Hsim as [Hre _]; pose proof (reach_inv P eqv good Heq HP s Hre) as HI;
      pose proof (heads_reach P eqv s Hre) as Hh;
      (destruct (decide (map_Forall (λ _ n, n_own n = None) (ents s))) as [Hall|Hno]; [exists [], s; split; [done|]; split; [done|exact Hall]|]);
      apply map_not_Forall in Hno as (a&n&Hn&Hno); try (intros; apply _); destruct (n_own n) as [u|] eqn:Eo; try done;
      destruct (owner_moves P eqv good Heq HP s a n u false HI Hh Hn Eo) as [s1 Hs1];
      pose proof (owner_step s u false s1 a n HI Hh Hn Eo Hs1) as Hlt; [lia|].
    destruct (IH s1) as (ls&s'&H1&H2&H3); [lia|by eapply (sim_env s w p (LRun u false))|]. exists (LRun u false :: ls), s'.
    split; [by constructor|]. split; [|done]. cbn [Concurrent.run]. by rewrite Hs1.
  Qed.
  Lemma finish_call o k M : (∀ x a ys, o ≠ Core.ONew x a ys) → ∀ (c : nat) s, lsum (weight P) (stack s t) ≤ c → sim (s, true, Call o k) M →
    ∃ ls s', Forall runs ls ∧ run s ls = Next s' ∧ stack s' t = [].
  Proof.
    intros Ho. induction c as [|c IH]; intros s Hc Hsim; pose proof Hsim as [Hre Hw]; pose proof (reach_inv P eqv good Heq HP s Hre) as HI;
      (destruct (stack s t) as [|i rest] eqn:Est; [by exists [], s|]).
    - exfalso. rewrite lsum_cons in Hc. destruct i; simpl in Hc; lia.
    - destruct Hw as (o'&k'&E&Hw). injection E as <- <-.
      assert (Htop : i ∈ stack s t) by (rewrite Est; left). destruct (i_gc _ _ _ _ HI t i Htop) as [Hgc _].
      assert (Hcase : (goalof i = None ∨ ∃ x y hx hy, goalof i = Some (GSwap x y hx hy)) ∧ reads s).
      { assert (Hcalm : calm s → (goalof i = None ∨ ∃ x y hx hy, goalof i = Some (GSwap x y hx hy)) ∧ reads s).
        { intros [Hg Hr]. split; [|done]. left. rewrite Est in Hg. cbn [omap list_omap] in Hg. by destruct (goalof i). }
        destruct o as [x a ys|x y|x y|x y|x|x|x y path]; simpl in Hw; try (destruct Hw as (M'&_&Hcm&_); by apply Hcalm); [by destruct (Ho x a ys)| |done].
        destruct Hw as (T&U&_&_&[(hx&hy&_&Hg&Hnr&_)|[Hcm _]]); [|by apply Hcalm]. split; [|intros z h Hz; by apply Hnr in Hz].
        rewrite Est in Hg. cbn [omap list_omap] in Hg. destruct (goalof i) as [g|]; [|by left]. injection Hg as -> _. right. by exists x, y, hx, hy. }
      destruct Hcase as [Hg Hrd].
      assert (∃ s1, step s (LRun t false) = Next s1) as [s1 Hs1].
      { pose proof (step_inv P eqv good Heq HP s (LRun t false) HI) as Hok. destruct (step s (LRun t false)) as [s1| |] eqn:E; [eauto|exfalso|done].
        simpl in E. rewrite Est in E.
        destruct i as [x p ys got|x p r|x h p ks k0|x h ks k0|x h ks k0|h|x h k0|x|x h|x y hx hy|x y hx hy|x y hx hy|h [|j]|h|h|h];
          simpl in Hg; try (destruct Hg as [|(?&?&?&?&?)]; done); try (simpl in Hgc; by destruct (Ht (Hgc I)));
          cbn [Concurrent.exec] in E; unfold add_ref, release in E; try (repeat case_match; done).
        destruct (Hrd x h Htop) as [_ Hx]. rewrite decide_True in E by (by apply live_some). repeat case_match; done. }
      pose proof Hs1 as He. simpl in He. rewrite Est in He. pose proof (exec_weight P eqv good HP s t i rest false s1 HI Ht Est He) as Hwt. rewrite Est in Hwt.
      destruct (IH s1) as (ls&s'&H1&H2&H3); [lia|by eapply (sim_env s true _ (LRun t false))|]. exists (LRun t false :: ls), s'.
      split; [by constructor|]. split; [|done]. cbn [Concurrent.run]. by rewrite Hs1.
  Qed.
  Lemma cprun_app (c : state * bool * prog) ls ls' : cprun c (ls ++ ls') = match cprun c ls with Some c' => cprun c' ls' | None => None end.
  Proof. revert c. induction ls as [|l ls IH]; intros c; [done|]. cbn [app ConClient.cprun]. by destruct (cpstep c l). Qed.
  Lemma quiet_runs ls : Forall runs ls → Forall cquiet (CEnv <$> ls).
  Proof. intros H. by apply Forall_fmap. Qed.

  (** It can always be brought to its end, where it is as if nothing had thrown. *)
  Theorem C72_completes (p : prog) : ∀ s M,
    reachable s → stack s t = [] → cagrees s M → safe p M → flat p →
    ∃ ls s' o M', Forall cquiet ls ∧ cprun (s, false, p) ls = Some (s', false, Ret o) ∧
      rtc (plain' false) (p, M) (Ret o, M') ∧ reachable s' ∧ stack s' t = [] ∧ cagrees s' M'.
  Proof.
    induction p as [o|o k IH|x path k IH|x path y path' k IH]; intros s M Hre Hst Hag Hsafe Hfl.
    - exists [], s, o, M. by split_and!.
    - destruct (drain false (Call o k) M (tsum stage s) s) as (ls&s1&H1&H2&Hfree); [lia|done|].
      destruct (sim_runs ls false (Call o k) M s s1 H1) as [Hsim1 H3]; [done|done|].
      destruct (Hsafe _ _ (rtc_refl _ _)) as [[? ?]|[c Hc]]; [done|].
      destruct (sim_start s1 o k M c Hsim1 Hfl Hc) as (o1&s2&Ho1&Hs2&Hsim2).
      (* the call completes and does not throw *)
      assert (∃ cs s3, Forall runs cs ∧ run s2 cs = Next s3 ∧ stack s3 t = [] ∧ made_it s3 o = true) as (cs&s3&Q1&Q2&Q3&Q4).
      { destruct (match o with Core.ONew _ _ _ => true | _ => false end) eqn:Eo.
        2: { destruct (finish_call o k M) with (c := lsum (weight P) (stack s2 t)) (s := s2) as (cs&s3&Q1&Q2&Q3); [by intros x a ys ->|done|done|].
             exists cs, s3. split_and!; try done. by destruct o. }
        destruct o as [x a ys| | | | | |]; try done. injection Ho1 as <-. pose proof Hsim1 as [Hre1 [Hst1 Hag1]]. pose proof (reach_inv P eqv good Heq HP s1 Hre1) as HI1.
        pose proof Hsim2 as [_ (o'&k'&E&Hw)]. injection E as <- <-. destruct Hw as (ts&l&_&_&Hx&HM&Hts&Hmk&_).
        assert (Hks : ∃ ks, Forall2 (λ y h, vars s1 !! y = Some (Some h)) ys ks ∧ length ks = length ts).
        { destruct Hag1 as [Ha1 Ha2]. clear -Hts Ha1 Ha2 Hre1. induction Hts as [|y T ys ts Hy Hts IHt]; [by exists []|]. destruct IHt as (ks&E1&E2).
          assert (Hyo : own y) by eauto. specialize (Ha1 y Hyo). rewrite Hy in Ha1. destruct (live_denotes s1 y T Ha1) as (h&Hh&_).
          exists (h :: ks). split; [by constructor|simpl; lia]. }
        destruct Hks as (ks&Hks&Hln). rewrite <- Hln in Hmk. destruct (Hmakes a ks l Hmk) as (r&Hr&_).
        assert (Hvx : vars s1 !! x = None) by (destruct Hag1 as [Ha1 _]; specialize (Ha1 x Hx); by rewrite HM in Ha1).
        destruct (retry P eqv good Heq HP s1 t x a ys ks r HI1 (heads_reach P eqv s1 Hre1) Ht Hst1) as (s2'&cs&s3&h&bs&N1&N2&N3&N4&N5&_); [|done|done|done|].
        { intros a' n t' Hn Ho. by rewrite (Hfree a' n Hn) in Ho. }
        assert (s2' = s2) as -> by congruence. exists (map (LRun t) cs), s3. split; [|split; [done|split; [done|]]].
        - apply Forall_forall. intros l' (c'&->&Hc')%elem_of_list_fmap. rewrite Forall_forall in N2. exact (N2 _ Hc').
        - simpl. unfold live. by rewrite N5, lookup_insert. }
      destruct (sim_runs cs true (Call o k) M s2 s3 Q1 Hsim2 Q2) as [Hsim2' Q5].
      destruct (sim_end s3 o k M Hsim2' Q3) as (M'&Hp'&Hsim3). rewrite Q4 in Hp', Hsim3. simpl in Hp'. pose proof Hsim3 as [Hre3 [Hst3 Hag3]].
      destruct (IH true s3 M' Hre3 Hst3 Hag3) as (ls2&s'&o'&M2&R1&R2&R3&R4&R5&R6).
      { eapply safe_plain; [exact Hsafe|eapply rtc_once, plain_more, Hp']. }
      { exact (flat_plain (Call o k, M) (k true, M') Hfl (plain_more _ _ _ Hp')). }
      exists ((CEnv <$> ls) ++ CGo :: (CEnv <$> cs) ++ CGo :: ls2), s', o', M2.
      split; [rewrite Forall_app, Forall_cons, Forall_app, Forall_cons; split_and!; try done; by apply quiet_runs|].
      split; [|split_and!; [by eapply rtc_l|done..]].
      rewrite cprun_app, H3. cbn [ConClient.cprun ConClient.cpstep cgo]. rewrite Ho1, Hs2, cprun_app, Q5. cbn [ConClient.cprun ConClient.cpstep cgo]. by rewrite Q3, Q4.
    - destruct (Hsafe _ _ (rtc_refl _ _)) as [[? ?]|[c Hc]]; [done|].
      destruct (sim_look s x path k M c) as (l&n&Hl&Hp&Hsim); [done|done|]. pose proof Hsim as [_ [_ Hag1]].
      destruct (IH l n s M Hre Hst Hag1) as (ls2&s'&o'&M2&R1&R2&R3&R4&R5&R6); [eapply safe_plain; [exact Hsafe|by apply rtc_once]|apply Hfl|].
      exists (CGo :: ls2), s', o', M2. split; [by constructor|]. split; [|split_and!; [by eapply rtc_l|done..]].
      cbn [ConClient.cprun ConClient.cpstep cgo]. by rewrite Hl.
    - destruct (Hsafe _ _ (rtc_refl _ _)) as [[? ?]|[c Hc]]; [done|].
      destruct (sim_same s x path y path' k M c) as (b&Hl&Hp&Hsim); [done|done|]. pose proof Hsim as [_ [_ Hag1]].
      destruct (IH b s M Hre Hst Hag1) as (ls2&s'&o'&M2&R1&R2&R3&R4&R5&R6); [eapply safe_plain; [exact Hsafe|by apply rtc_once]|apply Hfl|].
      exists (CGo :: ls2), s', o', M2. split; [by constructor|]. split; [|split_and!; [by eapply rtc_l|done..]].
      cbn [ConClient.cprun ConClient.cpstep cgo]. by rewrite Hl.
  Qed.

  (** Passes of the garbage collector while no call is in progress: what is
      left is every different tree among the values and their parts, once. *)
  Lemma cshows_some s : Inv s → ∀ a n, ents s !! a = Some n → ∃ T, cshows s a T.
  Proof.
    intros HI a. induction (lt_wf a) as [a _ IH]. intros n Hn.
    assert (∃ ts, Forall2 (cshows s) (p_kids P (n_rep n)) ts) as [ts Hts]; [|by exists (Tree (lab (n_rep n)) ts); econstructor].
    assert (Hk : ∀ b, b ∈ p_kids P (n_rep n) → ∃ T, cshows s b T).
    { intros b Hb. destruct (present P eqv good s b HI (cnt_kid P s a n b Hn Hb)) as (m&Hm&_). eapply IH; [|done]. by eapply (i_kids _ _ _ _ HI). }
    clear -Hk. induction (p_kids P (n_rep n)) as [|b ks IHk]; [by exists []|]. destruct (Hk b) as [T HT]; [by left|].
    destruct IHk as [ts Hts]; [intros c Hc; apply Hk; by right|]. exists (T :: ts). by constructor.
  Qed.
  Lemma subtree_snoc (T : tree L) p q : subtree T (p ++ q) = match subtree T p with Some U => subtree U q | None => None end.
  Proof. revert T. induction p as [|j p IH]; intros [l ts]; [done|]. simpl. destruct (ts !! j); [apply IH|done]. Qed.
  Theorem C72_minimal s ls s' G : reachable s → idle s → garbage P s G → Forall gc_label ls → run s ls = Next s' →
    size G < passes P eqv s ls ∨ (todo s = None ∧ size G ≤ passes P eqv s ls) →
    (∀ a n, ents s' !! a = Some n → ∃ T, cshows s' a T) ∧
    (∀ a b T U, cshows s' a T → cshows s' b U → (a = b ↔ T = U)) ∧
    ∀ T, (∃ a, cshows s' a T) ↔ ∃ x v W path, value_of s' x = Some v ∧ cshows s' v.1 W ∧ subtree W path = Some T.
  Proof.
    intros Hre Hid HG Hl Hs Hp. pose proof (C73_exact P eqv good Heq HP s ls s' G Hre Hid HG Hl Hs Hp) as Hex.
    destruct (gc_run P eqv good Heq HP ls s s' (reach_inv P eqv good Heq HP s Hre) Hid Hl Hs) as (HI&_).
    assert (Huq : ∀ a b T U, cshows s' a T → cshows s' b U → (a = b ↔ T = U)).
    { intros a b T U HT HU. split; [intros ->; by eapply cshows_fun|intros ->; by eapply cshows_inj]. }
    split; [by apply cshows_some|]. split; [done|]. intros T. split.
    - intros [a HT]. assert (Hh : held P s' a) by (apply Hex; inversion HT; eauto). revert T HT. induction Hh as [x h Hx|b n a Hb IH Hn Ha]; intros T HT.
      + destruct (present P eqv good s' h HI (cnt_var P s' x h Hx)) as (n&Hn&_). exists x, (h, n_rep n), T, []. split_and!; [|done|done].
        unfold value_of. by rewrite Hx, Hn.
      + destruct (cshows_some s' HI b n Hn) as [W HW]. destruct (IH W HW) as (x&v&W0&path&Hx&HW0&Hsub).
        inversion HW as [h m ts Hm Hts]; subst. assert (m = n) as -> by congruence. apply elem_of_list_lookup in Ha as [j Hj].
        destruct (Forall2_lookup_l _ _ _ _ _ Hts Hj) as (T'&HT'&HaT'). assert (T' = T) as -> by (by eapply cshows_fun).
        exists x, v, W0, (path ++ [j]). split_and!; [done|done|]. rewrite subtree_snoc, Hsub. simpl. by rewrite HT'.
    - intros (x&[h r]&W&path&Hx&HW&Hsub). unfold value_of in Hx. destruct (vars s' !! x) as [[h'|]|] eqn:Ex; [|done|done].
      destruct (ents s' !! h') as [n|] eqn:En; [|done]. simplify_eq. simpl in HW.
      destruct (within_shows s' path HI h W T (cnt_var P s' x h Ex) HW Hsub) as (h'&n'&_&_&HT&_). eauto.
  Qed.
End Sim.

(** ** Example: lists as in [PropStruct.v].  The program makes (1 (2 1)), copies
    the list in it, makes a list from that and a copy of the whole, and counts;
    meanwhile thread 2 makes (2 1) and 2 of its own, and drops 2, and the garbage
    collector makes its passes. *)
From Verif Require PropStruct PropClient.
Import PropStruct PropClient.
From Verif Require Import ConClient Concurrent.
Definition ccounts : prog (A:=option nat) (L:=option nat) (O:=list (option nat * nat)) :=
  let new x a ys p := Call (Core.ONew x a ys) (λ b : bool, if b then p else Ret []) in
  new 1 (Some 1) [] (new 2 (Some 2) [] (new 3 None [2; 1] (new 4 None [1; 3] (
  Call (Core.OCopy 5 3) (λ _, Call (Core.OSwap 5 1) (λ _, Call (Core.OAssign 2 4) (λ _, Call (Core.ODestroy 3) (λ _, new 6 None [1; 2; 5] (
  Look 6 [] (λ l0 n0, Look 6 [0] (λ l1 n1, Look 6 [1; 1] (λ l2 n2, Look 6 [1; 1; 0] (λ l3 n3, Look 5 [] (λ l4 n4,
  Same 6 [0] 6 [1; 1] (λ b, Same 6 [0] 5 [] (λ b',
  Call (Core.OAssign 2 5) (λ _, Call (Core.ODestroy 4) (λ _, Call (Core.ODestroy 6) (λ _,
  Ret [(l0, n0); (l1, n1); (l2, n2); (l3, n3); (l4, n4); (if b then Some 7 else None, if b' : bool then 1 else 0)]))))))))))))))))))).
Lemma ccounts_wp thr : wp small cmakes thr ccounts ∅ (λ o M, o = [(None, 3); (None, 2); (None, 2); (Some 2, 0); (Some 1, 0); (Some 7, 0)] ∨ thr = true ∧ o = []).
Proof.
  unfold ccounts. cbn [wp]. repeat
    match goal with
    | |- small _ ∧ _ => split; [unfold small; lia|]
    | |- cmakes _ _ _ ∧ _ => split; [split; [reflexivity|first [by left|by right]]|]
    | |- Forall2 _ _ _ ∧ _ => split; [repeat (apply Forall2_cons; split; [reflexivity|]); apply Forall2_nil; done|]
    | |- _ ∧ (thr = true → _) => split; [|by intros; right]
    | |- _ = _ ∧ _ => split; [reflexivity|]
    | |- ∀ b : bool, _ => intros b Hb; first [assert (b = true) as -> by (by apply Hb)|assert (b = false) as -> by (destruct b; [discriminate (proj1 Hb eq_refl)|done])]; clear Hb
    | |- ∃ _, _ => eexists
    end.
  by left.
Qed.
Definition tidy (k : nat) : list (label (A:=option nat)) :=
  concat (replicate k (LBegin :: concat ((λ h, [LLook h; LRun 0 false; LRun 0 false; LRun 0 false]) <$> seq 0 9) ++ [LEnd])).
Definition crowd : list (conlab (A:=option nat)) :=
  let turn := [CGo; CEnv (LRun 1 false); CEnv (LRun 2 false)] in
  concat (imap (λ i os, map CEnv (os : list label) ++ concat (replicate 20 (turn ++ turn ++ (if i <? 1 then map CEnv (tidy 1) else []))))
    [[LStart 2 (ONew 12 (Some 2) [])]; [LStart 2 (ONew 11 (Some 1) [])]; [LStart 2 (ONew 13 None [12; 11])]; [LStart 2 (ODestroy 12)]; []]).
Lemma ccP_ok : ConcurrentInv.policy_ok ceq (λ _, True) cP.
Proof. apply ConcurrentPolicies.default_policy_ok. intros [w|] ks k; simpl; intros; repeat case_match; by simplify_eq. Qed.
Example C72_at_work : let c := cprun cP ceq fst 1 (init, false, ccounts) crowd in
  ConcurrentInv.policy_ok ceq (λ _, True) cP ∧ safe small cmakes ccounts ∅ ∧ flat ccounts ∧ cagrees cP fst small (init (R:=ckey)) ∅ ∧ Forall (cforeign small 1) crowd ∧
  match c with
  | Some (s, w, p) => w = false ∧ p = Ret [(None, 3); (None, 2); (None, 2); (Some 2, 0); (Some 1, 0); (Some 7, 0)] ∧
      size (ents s) = 5 ∧ stack s 1 = [] ∧ stack s 2 = [] ∧ live s 13 = Some 2 ∧ live s 1 = Some 2 ∧ live s 2 = Some 0 ∧
      match run cP ceq s (tidy 1) with Next s' => size (ents s') = 4 | _ => False end ∧
      match run cP ceq s (tidy 2) with Next s' => size (ents s') = 3 ∧ passes cP ceq s (tidy 2) = 2 | _ => False end
  | None => False
  end.
Proof.
  split; [apply ccP_ok|]. split; [eapply wp_safe; [exact cmakes_fun|exact (ccounts_wp true)]|]. split; [unfold ccounts; cbn; repeat (intros ?; try match goal with b : bool |- _ => destruct b end; cbn); done|].
  split; [split; [done|intros x [? Hx]; by rewrite lookup_empty in Hx]|]. split.
  { apply Forall_forall. intros l Hl. assert (Hb : forallb (λ l : conlab (A:=option nat), match l with CEnv (LStart 2 o) => match o with ONew x _ _ | ODestroy x => 10 <=? x | _ => false end | CEnv (LStart _ _) => false | _ => true end) crowd = true) by (vm_compute; reflexivity).
    rewrite forallb_forall in Hb. apply elem_of_list_In in Hl. specialize (Hb l Hl). destruct l as [[u o|u c| |h|]|]; try done. intros _ x Hx. unfold small in Hx.
    destruct u as [|[|[|u]]]; try done. destruct o; try done; apply Nat.leb_le in Hb; simpl; apply bool_decide_eq_false; lia. }
  vm_compute. split_and!; reflexivity.
Qed.

Print Assumptions C72_transparent.
Print Assumptions C72_completes.
Print Assumptions C72_minimal.
