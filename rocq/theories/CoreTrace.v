(** Value transparency stated against an outside observer, who sees which
    API calls were started and when an object under construction becomes
    usable, and keeps a plain key for every object (not the ghost log of the
    machine). *)
From Verif Require Export CoreLive.

Section Observer.
  Context {K A R V : Type}.
  Context (P : policy K A R V) (FS : factory K) (cfg : config).
  Notation state := (state (R:=R) (K:=K) (A:=A) FS).
  Notation label := (label (A:=A)).

  (** [o_vals]: the plain key every completed object stands for;
      [o_pend]: per thread, the object being constructed and the key asked
      for ([None]: the key could not be built). *)
  Record obs := Obs { o_vals : gmap var K; o_pend : gmap tid (var * option K) }.

  (** the key found by going from [y] to a flyweight inside its value, and on *)
  Definition kid_at (s : state) (j : nat) (h : addr) : option addr :=
    match entry s h with Some n => p_kids P (n_rep n) !! j | None => None end.
  Definition key_inside (s : state) (y : var) (path : list nat) : option K :=
    match foldl (λ o j, o ≫= kid_at s j) (live s y) path with
    | Some h => match entry s h with Some n => Some (p_key P (n_rep n)) | None => None end
    | None => None
    end.

  Definition observe (s : state) (l : label) (s' : state) (o : obs) : obs :=
    match l with
    | LStart t (ONew x p ys) =>
        let k := match mapM (live s) ys with
                 | Some ks => match p_make P p ks with Some r => Some (p_key P r) | None => None end
                 | None => None
                 end in
        Obs (o_vals o) (<[t:=(x, k)]> (o_pend o))
    | LStart _ (OCopy x y) | LStart _ (OAssign x y) =>
        match o_vals o !! y with
        | Some k => Obs (<[x:=k]> (o_vals o)) (o_pend o)
        | None => o
        end
    | LStart _ (OSwap x y) =>
        match o_vals o !! x, o_vals o !! y with
        | Some kx, Some ky => Obs (<[y:=kx]> (<[x:=ky]> (o_vals o))) (o_pend o)
        | _, _ => o
        end
    | LStart _ (ODestroy x) => Obs (delete x (o_vals o)) (o_pend o)
    | LStart _ (OGet _) => o
    | LStart _ (OInner x y path) =>
        match key_inside s y path with
        | Some k => Obs (<[x:=k]> (o_vals o)) (o_pend o)
        | None => o
        end
    | LRun t _ =>
        match o_pend o !! t with
        | Some (x, k) =>
            match vars s' !! x, k with
            | Some None, _ => o                                   (* still under construction *)
            | Some (Some _), Some k => Obs (<[x:=k]> (o_vals o)) (delete t (o_pend o))
            | _, _ => Obs (o_vals o) (delete t (o_pend o))        (* exception *)
            end
        | None => o
        end
    end.

  Fixpoint watch (s : state) (o : obs) (ls : list label) : obs :=
    match ls with
    | [] => o
    | l :: ls =>
        match step P FS cfg s l with
        | Next s' => watch s' (observe s l s' o) ls
        | Stuck => watch s o ls
        | Undef => o
        end
    end.
End Observer.
Global Arguments Obs {_} _ _.
Global Arguments o_vals {_} _.
Global Arguments o_pend {_} _.

Section Trace.
  Context {K A R V : Type}.
  Context (P : policy K A R V) (FS : factory K) (cfg : config).
  Context (eqv : K → K → bool) (good : R → Prop).
  Context (Heq : equivalence eqv) (HP : policy_ok eqv good P) (HF : factory_spec eqv FS).
  Context (t0 : tid).

  Notation state := (state (R:=R) (K:=K) (A:=A) FS).
  Notation instr := (instr (K:=K) (A:=A) (R:=R)).
  Notation label := (label (A:=A)).
  Notation obs := (obs (K:=K)).
  Notation Inv := (Inv P FS cfg eqv good HF t0).
  Notation allowed := (allowed cfg t0).
  Notation step := (step P FS cfg).
  Notation run := (run P FS cfg).
  Notation observe := (observe P FS).
  Notation watch := (watch P FS cfg).
  Implicit Types (s : state) (o : obs) (i : instr).

  Definition mkof (i : instr) : option (var * option K) :=
    match i with
    | ILockFind x p r | IFind x p r => Some (x, Some (p_key P r))
    | IVisit x _ _ _ k | IAddRef x _ _ k | IAddDel x _ _ k | IBind x _ k => Some (x, Some k)
    | IAbort x => Some (x, None)
    | _ => None
    end.

  Definition J s o : Prop :=
    o_vals o = replay (log s) ∧
    ∀ t, match o_pend o !! t with
         | None => omap mkof (stack s t) = []
         | Some (x, ko) => ∃ ko', omap mkof (stack s t) = [(x, ko')] ∧ (ko' = None ∨ ko' = ko)
         end.

  Lemma key_inside_inner s y h0 path h n : live s y = Some h0 → inner P FS s h0 path = Some (Some h) → entry s h = Some n →
    key_inside P FS s y path = Some (p_key P (n_rep n)).
  Proof.
    intros Hy Hin Hn. unfold key_inside. rewrite Hy. clear Hy.
    assert (foldl (λ w j, w ≫= kid_at P FS s j) (Some h0) path = Some h) as ->; [|by rewrite Hn].
    revert h0 Hin. induction path as [|j path IH]; intros h0; simpl; [by intros [= ->]|].
    unfold kid_at at 2. destruct (entry s h0) as [m|]; [|done]. destruct (p_val P (n_rep m)); [|done].
    destruct (p_kids P (n_rep m) !! j) as [h'|]; [apply IH|done].
  Qed.

  Lemma omap_release (ks : list addr) : omap mkof (map IRelease ks) = [].
  Proof. by induction ks. Qed.

  Lemma exec_goal s t i rest c s' : stack s t = i :: rest → exec P FS cfg s t i rest c = Next s' →
    match i with
    | IBind _ _ _ | IAbort _ => stack s' t = rest
    | _ => omap mkof (stack s' t) = omap mkof (i :: rest) ∨
           ∃ x k, mkof i = Some (x, Some k) ∧ omap mkof (stack s' t) = (x, None) :: omap mkof rest
    end.
  Proof.
    intros Hst He.
    assert (Hs : ∀ s1 new, stack (set_stack t new s1) t = new) by (intros; by rewrite stack_set, decide_True).
    assert (Hl : ∀ s1 new e, stack (add_log e (set_stack t new s1)) t = new).
    { intros. unfold stack. simpl. by rewrite lookup_insert. }
    destruct i; simpl in He; unfold acquire, unlock, erase in He; repeat case_match; simplify_eq;
      rewrite ?Hs, ?Hl; try done; try (by left);
      unfold finish, unwind; rewrite <- ?app_assoc; simpl; rewrite <- ?app_assoc; simpl;
      rewrite ?omap_app, ?omap_release; simpl; rewrite ?omap_app, ?omap_release; simpl; by eauto.
  Qed.

  (** the object a thread is constructing is not usable yet *)
  Lemma making_var s t x ko : Inv s → (x, ko) ∈ omap mkof (stack s t) → vars s !! x = Some None.
  Proof.
    intros HI Hin. apply elem_of_list_omap in Hin as (i&Hi&Hm).
    pose proof (tsum_elem _ (making x) s t i Hi) as E.
    assert (making x i = 1) as E1 by (destruct i; simplify_eq/=; by rewrite at_eq).
    pose proof HI as [_ _ HS]. pose proof (i_vars _ _ _ _ HS x) as E2.
    destruct (vars s !! x) as [[h|]|]; [lia|done|lia].
  Qed.

  Lemma quiet_exec s t i rest c s' : exec P FS cfg s t i rest c = Next s' →
    match i with
    | IBind _ _ _ | IAbort _ => True
    | _ => vars s' = vars s ∧ replay (log s') = replay (log s)
    end.
  Proof.
    intros He. destruct i; simpl in He; unfold acquire, unlock, erase in He; repeat case_match; simplify_eq; done.
  Qed.

  Lemma J_step s l s' o : Inv s → allowed (label_tid l) → J s o → step s l = Next s' → J s' (observe s l s' o).
  Proof.
    intros HI Hal [Hv Hp] Hstep. pose proof Hstep as Hstep0. destruct l as [t op|t c]; simpl in Hstep.
    - destruct (stack s t) eqn:Hst; [|done].
      assert (Hpt : o_pend o !! t = None).
      { specialize (Hp t). destruct (o_pend o !! t) as [[x ko]|]; [|done]. rewrite Hst in Hp.
        destruct Hp as (?&?&_). done. }
      assert (Hkeep : ∀ s1 new, stacks s1 = stacks s → omap mkof new = [] →
        ∀ t', match o_pend o !! t' with
         | None => omap mkof (stack (set_stack t new s1) t') = []
         | Some (x, ko) => ∃ ko', omap mkof (stack (set_stack t new s1) t') = [(x, ko')] ∧ (ko' = None ∨ ko' = ko)
         end).
      { intros s1 new Hs1 Hnew t'. rewrite stack_set. destruct (decide (t' = t)) as [->|Hne].
        - by rewrite Hpt.
        - specialize (Hp t'). unfold stack in *. by rewrite Hs1. }
      assert (Hkeep0 : ∀ s1, stacks s1 = stacks s →
        ∀ t', match o_pend o !! t' with
         | None => omap mkof (stack s1 t') = []
         | Some (x, ko) => ∃ ko', omap mkof (stack s1 t') = [(x, ko')] ∧ (ko' = None ∨ ko' = ko)
         end).
      { intros s1 Hs1 t'. specialize (Hp t'). unfold stack in *. by rewrite Hs1. }
      assert (Hcp : ∀ ks s1, (∀ a, a ∈ ks → ∃ y, live s y = Some a) → copy_handles FS cfg s ks = Some s1 →
        stacks s1 = stacks s ∧ log s1 = log s ∧ vars s1 = vars s).
      { intros ks s1 Hks Hs1. destruct (copy_handles_spec P FS cfg s ks) as (s2&Hs2&Hc).
        { intros a [y Hy]%Hks. destruct (live_entry _ _ _ _ _ _ _ _ _ _ HI Hy) as (n&Hn&_). eauto. }
        assert (s2 = s1) as -> by congruence. destruct Hc as [C1 C2 C3 C4 C5 C6 C7 C8]. done. }
      destruct op as [x p ys|x y|x y|x y|x|x|x y path]; simpl in Hstep.
      + destruct (vars s !! x); [done|]. destruct (mapM (live s) ys) as [ks|] eqn:Hm; [|done].
        destruct (copy_handles FS cfg s ks) as [s1|] eqn:Hs1; [|done].
        destruct (Hcp ks s1) as (C6&C8&C4); [|done|].
        { intros a Ha. apply mapM_Some in Hm. apply elem_of_list_lookup in Ha as [j Hj].
          destruct (Forall2_lookup_r _ _ _ _ _ Hm Hj) as (y&_&Hy). eauto. }
        unfold observe. rewrite Hm. split.
        * destruct (p_make P p ks); simplify_eq; simpl; congruence.
        * intros t'. simpl. destruct (decide (t' = t)) as [->|Hne].
          -- rewrite lookup_insert. destruct (p_make P p ks) as [r|]; simplify_eq; rewrite stack_set, decide_True by done.
             ++ eexists. split; [done|]. by right.
             ++ rewrite omap_app, omap_release. eexists. split; [done|]. by left.
          -- rewrite lookup_insert_ne by done. specialize (Hp t').
             assert (stack s' t' = stack s t') as ->; [|done].
             destruct (p_make P p ks); simplify_eq; rewrite stack_set, decide_False by done;
               unfold stack; simpl; by rewrite C6.
      + destruct (vars s !! x); [done|]. destruct (live s y) as [h|] eqn:Hy; [|done].
        destruct (copy_handle FS cfg s h) as [s1|] eqn:Hs1; [|done].
        destruct (Hcp [h] s1) as (C6&C8&C4); [|by simpl; rewrite Hs1|].
        { intros a ->%elem_of_list_singleton. eauto. }
        simplify_eq. split; simpl.
        * rewrite C8, <- Hv. by destruct (o_vals o !! y).
        * destruct (o_vals o !! y); by apply Hkeep0.
      + destruct (live s x) as [hx|] eqn:Hx; [|done]. destruct (live s y) as [h|] eqn:Hy; [|done].
        destruct (copy_handle FS cfg s h) as [s1|] eqn:Hs1; [|done].
        destruct (Hcp [h] s1) as (C6&C8&C4); [|by simpl; rewrite Hs1|].
        { intros a ->%elem_of_list_singleton. eauto. }
        simplify_eq. split; simpl.
        * rewrite C8, <- Hv. by destruct (o_vals o !! y).
        * destruct (o_vals o !! y); by apply (Hkeep (set_vars (<[x:=Some h]> (vars s1)) s1) [IRelease hx]).
      + destruct (live s x) as [hx|] eqn:Hx; [|done]. destruct (live s y) as [h|] eqn:Hy; [|done].
        simplify_eq. split; simpl.
        * rewrite <- Hv. by destruct (o_vals o !! x), (o_vals o !! y).
        * destruct (o_vals o !! x), (o_vals o !! y); by apply Hkeep0.
      + destruct (live s x) as [hx|] eqn:Hx; [|done]. simplify_eq. split; simpl.
        * by rewrite <- Hv.
        * by apply (Hkeep (set_vars (delete x (vars s)) s) [IRelease hx]).
      + destruct (live s x) as [hx|] eqn:Hx; [|done]. repeat case_match; simplify_eq. split; simpl; [done|].
        by apply Hkeep0.
      + destruct (vars s !! x); [done|]. destruct (live s y) as [h0|] eqn:Hy; [|done].
        destruct (inner_live P FS cfg eqv good HF t0 s y h0 path HI Hy) as [Hin|(h&n&Hin&_&Hn&_)]; rewrite Hin in Hstep; [done|].
        rewrite Hn in Hstep. destruct (copy_handles_spec P FS cfg s [h]) as (s1&Hs1&Hcp1).
        { intros a ->%elem_of_list_singleton. eauto. }
        simpl in Hs1. destruct (copy_handle FS cfg s h) as [s1'|]; simplify_eq. pose proof Hcp1 as [C1 C2 C3 C4 C5 C6 C7 C8].
        unfold observe. rewrite (key_inside_inner s y h0 path h n Hy Hin Hn). split; simpl.
        * by rewrite C8, <- Hv.
        * by apply Hkeep0.
    - destruct (stack s t) as [|i rest] eqn:Hst; [done|].
      pose proof (exec_goal _ _ _ _ _ _ Hst Hstep) as Hg. pose proof (quiet_exec _ _ _ _ _ _ Hstep) as Hq.
      assert (Ho : ∀ t', t' ≠ t → stack s' t' = stack s t') by (intros; by eapply other_stack).
      pose proof (Hp t) as Hpt. rewrite Hst in Hpt.
      assert (Hrest : ∀ p' : gmap tid (var * option K), (∀ t', t' ≠ t → p' !! t' = o_pend o !! t') →
         match p' !! t with
         | None => omap mkof (stack s' t) = []
         | Some (x, ko) => ∃ ko', omap mkof (stack s' t) = [(x, ko')] ∧ (ko' = None ∨ ko' = ko)
         end →
         ∀ t', match p' !! t' with
         | None => omap mkof (stack s' t') = []
         | Some (x, ko) => ∃ ko', omap mkof (stack s' t') = [(x, ko')] ∧ (ko' = None ∨ ko' = ko)
         end).
      { intros p' Hp' Ht t'. destruct (decide (t' = t)) as [->|Hne]; [done|].
        rewrite Hp', Ho by done. apply Hp. }
      assert (Hquiet : (∀ x ko, o_pend o !! t = Some (x, ko) → vars s' !! x = Some None) →
         replay (log s') = replay (log s) →
         omap mkof (stack s' t) = omap mkof (i :: rest) ∨
           (∃ x k, mkof i = Some (x, Some k) ∧ omap mkof (stack s' t) = (x, None) :: omap mkof rest) →
         J s' (observe s (LRun t c) s' o)).
      { intros Hx Hlg Hgo.
        assert (observe s (LRun t c) s' o = o) as ->.
        { unfold observe. destruct (o_pend o !! t) as [[x ko]|] eqn:Hpe; [|done]. by rewrite (Hx x ko). }
        split; [congruence|]. apply Hrest; [done|].
        destruct (o_pend o !! t) as [[x ko]|].
        - destruct Hpt as (ko'&E&Hko). destruct Hgo as [->|(x1&k1&E1&E2)]; [by eauto|].
          simpl in E. rewrite E1 in E. injection E as -> <- E3. exists None. split; [|by left]. etransitivity; [exact E2|]. f_equal. exact E3.
        - destruct Hgo as [->|(x1&k1&E1&E2)]; [done|]. simpl in Hpt. by rewrite E1 in Hpt. }
      assert (Hmk : ∀ x ko, o_pend o !! t = Some (x, ko) → vars s !! x = Some None).
      { intros x ko E. rewrite E in Hpt. destruct Hpt as (ko'&E'&_).
        apply (making_var s t x ko'); [done|]. rewrite Hst, E'. by left. }
      destruct i as [x p r|x p r|x h p ks k|x h ks k|x h ks k| |h|h|h|h|x h k|x].
      11: { simpl in Hstep. injection Hstep as <-. clear Hq Hquiet.
            destruct (o_pend o !! t) as [[y ko]|] eqn:Hpe; [|done].
            destruct Hpt as (ko'&E&Hko). simpl in E. injection E as <- <- E. destruct Hko as [?|<-]; [done|].
            unfold observe. rewrite Hpe. simpl. rewrite lookup_insert. split; simpl.
            - by rewrite Hv.
            - apply Hrest.
              + intros t' Hne. by rewrite lookup_delete_ne.
              + rewrite lookup_delete. by rewrite Hg. }
      11: { simpl in Hstep. injection Hstep as <-. clear Hq Hquiet.
            destruct (o_pend o !! t) as [[y ko]|] eqn:Hpe; [|done].
            destruct Hpt as (ko'&E&Hko). simpl in E. injection E as <- <- E.
            unfold observe. rewrite Hpe. simpl. rewrite lookup_delete. split; simpl.
            - by rewrite Hv.
            - apply Hrest.
              + intros t' Hne. by rewrite lookup_delete_ne.
              + rewrite lookup_delete. by rewrite Hg. }
      all: destruct Hq as [Hq1 Hq2]; apply Hquiet; [intros y ko; rewrite Hq1; apply Hmk|done|done].
  Qed.

  Lemma watch_run ls s o s' : Inv s → Forall (λ l, allowed (label_tid l)) ls → J s o →
    run s ls = Next s' → J s' (watch s o ls).
  Proof.
    intros HI Hal. revert s o HI. induction Hal as [|l ls Hl _ IH]; intros s o HI HJ; cbn [Core.run CoreTrace.watch].
    { by intros [= ->]. }
    pose proof (step_ok P FS cfg eqv good Heq HP HF t0 s l HI Hl) as Hok.
    destruct (step s l) as [s1| |] eqn:E; [|by apply IH|done].
    apply IH; [done|]. by apply J_step.
  Qed.

  (** C01 *)
  Lemma observer_transparency ls s x : sched_ok cfg t0 ls → run (init FS) ls = Next s →
    match value_of s x with
    | Some (h, r) => ∃ k, o_vals (watch (init FS) (Obs ∅ ∅) ls) !! x = Some k ∧ eqv (p_key P r) k = true
    | None => o_vals (watch (init FS) (Obs ∅ ∅) ls) !! x = None
    end.
  Proof.
    intros Hok Hrun.
    destruct (watch_run ls (init FS) (Obs ∅ ∅) s) as [-> _]; [by apply init_inv|by apply sched_allowed| |done|].
    { split; [done|]. intros t. simpl. rewrite lookup_empty. unfold stack. simpl. by rewrite lookup_empty. }
    eapply transparency; [done..|]. by exists ls.
  Qed.
End Trace.
