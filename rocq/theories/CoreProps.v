(** Consequences of the invariant for every reachable state. *)
From Verif Require Export CoreEff CoreSpec.

Section Props.
  Context {K A R V : Type}.
  Context (P : policy K A R V) (FS : factory K) (cfg : config).
  Context (eqv : K → K → bool) (good : R → Prop).
  Context (Heq : equivalence eqv) (HP : policy_ok eqv good P) (HF : factory_spec eqv FS).
  Context (t0 : tid).

  Notation state := (state (R:=R) (K:=K) (A:=A) FS).
  Notation instr := (instr (K:=K) (A:=A) (R:=R)).
  Notation node := (node (R:=R)).
  Notation label := (label (A:=A)).
  Notation event := (event (K:=K) (R:=R)).
  Notation tsum := (tsum FS).
  Notation vsum := (vsum FS).
  Notation hsum := (hsum P FS).
  Notation cnt := (cnt P FS).
  Notation Inv := (Inv P FS cfg eqv good HF t0).
  Notation same_shape := (same_shape FS).
  Notation allowed := (allowed cfg t0).
  Notation step := (step P FS cfg).
  Notation run := (run P FS cfg).
  Notation eff := (eff P FS cfg eqv).
  Notation reachable := (reachable P FS cfg t0).
  Notation key_of := (key_of P FS).
  Notation done_node n := (is_Some (p_val P (n_rep n))).
  Implicit Types (s : state) (n m : node) (a b h : addr) (t : tid) (i : instr) (l : label).

  Lemma sched_allowed ls : sched_ok cfg t0 ls → Forall (λ l, allowed (label_tid l)) ls.
  Proof.
    unfold sched_ok, CoreStep.allowed. intros H. destruct (lck cfg); [|by eapply Forall_impl; [apply H|]].
    apply Forall_forall. done.
  Qed.

  (** C20, C24: nothing undefined ever happens *)
  Lemma never_undef ls : sched_ok cfg t0 ls → ∃ s, run (init FS) ls = Next s.
  Proof.
    intros H%sched_allowed.
    destruct (run_ok P FS cfg eqv good Heq HP HF t0 ls (init FS)) as (s&?&_); eauto. by apply init_inv.
  Qed.

  Lemma reach_inv s : reachable s → Inv s.
  Proof.
    intros (ls&H%sched_allowed&Hr).
    destruct (run_ok P FS cfg eqv good Heq HP HF t0 ls (init FS)) as (s'&Hr'&?); [by apply init_inv|done|].
    rewrite Hr in Hr'. by simplify_eq.
  Qed.

  Lemma run_app s ls1 ls2 s1 : run s ls1 = Next s1 → run s (ls1 ++ ls2) = run s1 ls2.
  Proof.
    revert s. induction ls1 as [|l ls1 IH]; intros s; simpl; [by intros [= ->]|].
    destruct (step s l); [by apply IH|by apply IH|done].
  Qed.

  Lemma reach_run s ls s' : reachable s → sched_ok cfg t0 ls → run s ls = Next s' → reachable s'.
  Proof.
    intros (ls0&H0&Hr0) H1 Hr1. exists (ls0 ++ ls). split.
    - unfold sched_ok in *. intros E. apply Forall_app. auto.
    - by rewrite (run_app _ _ _ _ Hr0).
  Qed.

  Lemma reach_step s l s' : reachable s → allowed (label_tid l) → step s l = Next s' → reachable s'.
  Proof.
    intros Hr Hl Hs. eapply (reach_run _ [l]); [done| |simpl; by rewrite Hs].
    intros E. constructor; [by apply Hl|done].
  Qed.

  (** induction over the effective steps of a schedule *)
  Lemma run_ind (Q : state → Prop) (T : label → Prop) :
    (∀ s l s', Inv s → allowed (label_tid l) → T l → Q s → step s l = Next s' → Q s') →
    ∀ ls s s', Inv s → Forall (λ l, allowed (label_tid l)) ls → Forall T ls →
      Q s → run s ls = Next s' → Q s'.
  Proof.
    intros Hstep. induction ls as [|l ls IH]; intros s s' HI Ha HT HQ; simpl; [by intros [= ->]|].
    inversion Ha; subst. inversion HT; subst.
    pose proof (step_ok P FS cfg eqv good Heq HP HF t0 s l HI H1) as Hok. unfold res_ok in Hok.
    destruct (step s l) as [s1| |] eqn:E; [|by apply (IH s s')|done]. apply (IH s1 s'); try done. by eapply (Hstep s l).
  Qed.

  (** *** entries and variables *)
  Lemma var_entry s x h : Inv s → vars s !! x = Some (Some h) →
    ∃ n, entry s h = Some n ∧ done_node n.
  Proof. intros HI Hx. eapply live_entry; [done|]. unfold live. by rewrite Hx. Qed.

  Lemma value_of_var s x h r : Inv s →
    value_of s x = Some (h, r) ↔
    vars s !! x = Some (Some h) ∧ ∃ n, entry s h = Some n ∧ n_rep n = r ∧ done_node n.
  Proof.
    intros HI. unfold value_of. destruct (vars s !! x) as [[h'|]|] eqn:Hx; [|naive_solver..].
    destruct (var_entry _ _ _ HI Hx) as (n&Hn&Hd). pose proof Hn as Hn'.
    apply entry_heap in Hn as [Hn _]. rewrite Hn. split.
    - intros ?; simplify_eq. eauto.
    - intros (?&m&Hm&?&?). simplify_eq. done.
  Qed.

  (** C02 *)
  Lemma sharing s x y hx rx hy ry : reachable s →
    value_of s x = Some (hx, rx) → value_of s y = Some (hy, ry) →
    (hx = hy ↔ eqv (p_key P rx) (p_key P ry) = true).
  Proof.
    intros HI%reach_inv (Hx&n&Hn&<-&_)%value_of_var (Hy&m&Hm&<-&_)%value_of_var; [|done..]. split.
    - intros ->. simplify_eq. apply (eqv_refl _ Heq).
    - intros E. eapply (i_uniq _ _ _ _ _ _ (i_H _ _ _ _ _ _ _ _ HI)); eauto.
  Qed.

  Lemma stored_unique s a b n m : reachable s → entry s a = Some n → entry s b = Some m →
    eqv (p_key P (n_rep n)) (p_key P (n_rep m)) = true → a = b.
  Proof. intros HI%reach_inv. apply (i_uniq _ _ _ _ _ _ (i_H _ _ _ _ _ _ _ _ HI)). Qed.

  Lemma no_dangling s x h : reachable s → vars s !! x = Some (Some h) →
    ∃ r, value_of s x = Some (h, r) ∧ is_Some (p_val P r) ∧ good r.
  Proof.
    intros HI%reach_inv Hx. destruct (var_entry _ _ _ HI Hx) as (n&Hn&Hd). exists (n_rep n).
    split_and!; [|done|].
    - apply value_of_var; eauto.
    - by eapply (i_good _ _ _ _ _ _ (i_H _ _ _ _ _ _ _ _ HI)).
  Qed.

  (** C03 *)
  Definition stays (x : var) (h : addr) (r : R) (st : nat) s : Prop :=
    vars s !! x = Some (Some h) ∧ ∃ n, entry s h = Some n ∧ n_rep n = r ∧ n_stamp n = st.

  Lemma var_cnt s x h : vars s !! x = Some (Some h) → 0 < cnt s h.
  Proof. intros Hx. eapply (live_cnt P FS s x). unfold live. by rewrite Hx. Qed.

  Lemma stays_step s l s' x h r st : Inv s → allowed (label_tid l) → touches x l = false →
    stays x h r st s → step s l = Next s' → stays x h r st s'.
  Proof.
    intros HI Hal Hto (Hx&n&Hn&Hr&Hs) Hstep.
    destruct (var_entry _ _ _ HI Hx) as (n'&Hn'&Hd). assert (n' = n) as -> by congruence.
    pose proof (var_cnt _ _ _ Hx) as Hc.
    destruct (eff_step P FS cfg eqv good Heq HP HF t0 _ _ _ HI Hal Hstep)
      as [oe Hsh _ Hv _|t c y p r0 rest a -> Hst Ha _ He Hvars _
         |t c y h' p ks k rest m -> Hst Hm Hv _ _ _ He Hvars _
         |t c i rest h' m -> Hst _ Hm Hc0 He Hvars _].
    - destruct Hsh as [H1 _]. destruct (H1 _ _ Hn) as (m&Hm&Hmr&Hms). split; [|exists m; split_and!; congruence].
      remember (vars s') as vs' eqn:Ev. clear Ev.
      destruct Hv as [|t y p ys -> Hy|t c y h' k rest m' -> Hst Hy _ _|t c y rest -> Hst Hy|t y z h' -> Hy Hz
        |t y z hx hy -> Hy Hz|t y z hx hy -> Hy Hz|t y h' -> Hy|t y h' m' -> Hy _ _|t y z path h0 h' m' -> Hy _ _ _ _]; simpl in Hto.
      + done.
      + rewrite lookup_insert_ne; [done|]. intros ->. congruence.
      + rewrite lookup_insert_ne; [done|]. intros ->. congruence.
      + rewrite lookup_delete_ne; [done|]. intros ->. congruence.
      + rewrite lookup_insert_ne; [done|]. intros ->. congruence.
      + apply bool_decide_eq_false in Hto. rewrite lookup_insert_ne; done.
      + apply orb_false_iff in Hto as [H2%bool_decide_eq_false H3%bool_decide_eq_false].
        rewrite !lookup_insert_ne; done.
      + apply bool_decide_eq_false in Hto. rewrite lookup_delete_ne; done.
      + done.
      + rewrite lookup_insert_ne; [done|]. intros ->. congruence.
    - split; [congruence|]. exists n. rewrite He. rewrite decide_False; [done|]. intros ->.
      apply entry_heap in Hn as [Hn _]. congruence.
    - split; [congruence|]. exists n. rewrite He. rewrite decide_False; [done|]. intros ->.
      rewrite Hn in Hm. simplify_eq. destruct Hd; congruence.
    - split; [congruence|]. exists n. rewrite He. rewrite decide_False; [done|]. intros ->. lia.
  Qed.

  Lemma stays_run ls s s' x h r st : Inv s → Forall (λ l, allowed (label_tid l)) ls →
    Forall (λ l, touches x l = false) ls →
    stays x h r st s → run s ls = Next s' → stays x h r st s'.
  Proof.
    apply (run_ind (stays x h r st) (λ l, touches x l = false)).
    intros s1 l s2 ????. by eapply stays_step.
  Qed.

  Lemma stability s ls s' x h r : reachable s → sched_ok cfg t0 ls →
    Forall (λ l, touches x l = false) ls → run s ls = Next s' →
    value_of s x = Some (h, r) → value_of s' x = Some (h, r).
  Proof.
    intros Hr Hok Hto Hrun Hv. pose proof (reach_inv _ Hr) as HI.
    apply value_of_var in Hv as (Hx&n&Hn&Hnr&Hd); [|done].
    assert (stays x h r (n_stamp n) s') as (Hx'&m&Hm&Hmr&Hms).
    { eapply (stays_run ls); eauto using sched_allowed. split; eauto. }
    apply value_of_var; [by eapply reach_inv, reach_run|]. split; [done|].
    exists m. split_and!; try done. rewrite Hmr, <- Hnr. done.
  Qed.

  (** C05 *)
  Lemma kept_forever s ls s' a n : trk cfg = false → reachable s → sched_ok cfg t0 ls →
    run s ls = Next s' → entry s a = Some n → is_Some (p_val P (n_rep n)) →
    ∃ n', entry s' a = Some n' ∧ n_rep n' = n_rep n.
  Proof.
    intros Et Hr Hok Hrun Hn Hd.
    eapply (run_ind (λ s, ∃ n', entry s a = Some n' ∧ n_rep n' = n_rep n) (λ _, True));
      [|by apply reach_inv|by apply sched_allowed|by apply Forall_true|by eauto|done].
    clear s ls s' Hr Hok Hrun Hn.
    intros s l s' HI Hal _ (n'&Hn&Hnr) Hstep.
    destruct (eff_step P FS cfg eqv good Heq HP HF t0 _ _ _ HI Hal Hstep)
      as [oe [H1 _] _ Hv _|t c y p r0 rest b -> Hst Ha _ He Hvars _
         |t c y h' p ks k rest m -> Hst Hm Hv _ _ _ He Hvars _
         |t c i rest h' m -> Hst Hi Hm Hc0 He Hvars _].
    - destruct (H1 _ _ Hn) as (m&Hm&Hmr&_). exists m. split; congruence.
    - exists n'. rewrite He. rewrite decide_False; [done|]. intros ->. apply entry_heap in Hn as [? _]. congruence.
    - exists n'. rewrite He. rewrite decide_False; [done|]. intros ->. rewrite Hn in Hm. simplify_eq.
      rewrite Hnr in Hv. destruct Hd. congruence.
    - exists n'. rewrite He. rewrite decide_False; [done|]. intros ->. rewrite Hn in Hm. simplify_eq.
      destruct Hi as [(_&_&?)|(?&?&?&?&_&?)]; [congruence|]. rewrite Hnr in *. destruct Hd. congruence.
  Qed.

  (** C04 *)
  Lemma quiescent_tsum s f : quiescent s → tsum f s = 0.
  Proof.
    intros Hq. apply msum_zero. intros t k Hk. specialize (Hq t). unfold stack in Hq. rewrite Hk in Hq.
    simpl in Hq. by subst.
  Qed.

  Lemma held_entry s a : Inv s → held P FS s a → ∃ n, entry s a = Some n ∧ done_node n.
  Proof.
    intros HI. induction 1 as [x h Hx|b n a Hb (m&Hm&_) Hn Ha]; [by eapply var_entry|].
    assert (entry s b = Some n). { pose proof Hm as [E ?]%entry_heap. simplify_eq. done. }
    apply (i_hnd _ _ _ _ _ (i_C _ _ _ _ _ _ _ _ HI)). by eapply kid_cnt.
  Qed.

  Lemma exact_contents s a : trk cfg = true → reachable s → quiescent s →
    (∃ n, heap s !! a = Some n) ↔ held P FS s a.
  Proof.
    intros Et HI%reach_inv Hq. pose proof HI as [HH HC HS]. split.
    - intros (n&Hn).
      assert (He : entry s a = Some n).
      { apply entry_heap. split; [done|]. pose proof (i_free _ _ _ _ _ HC a) as E.
        rewrite quiescent_tsum, Hn in E by done. by destruct (n_linked n). }
      clear Hn. remember (clock s - n_stamp n) as d eqn:Ed. revert a n He Ed.
      induction (lt_wf d) as [d _ IH]. intros a n He ->.
      assert (Hc : 0 < cnt s a).
      { destruct (i_why _ _ _ _ _ HC Et _ _ He) as [?|[?|?]]; [done|..];
          rewrite quiescent_tsum in *; done || lia. }
      assert (Hcase : 0 < vsum a s ∨ 0 < hsum a s).
      { unfold CoreInv.cnt in Hc. rewrite quiescent_tsum in Hc by done. lia. }
      destruct Hcase as [Hv|Hh].
      + apply msum_pos in Hv as (x&[h|]&Hx&Hp); simpl in Hp; [|lia]. unfold at_ in Hp.
        case_decide; [subst|lia]. by eapply held_var.
      + apply msum_pos in Hh as (b&m&Hb&Hp). unfold CoreInv.ncount in Hp.
        destruct (n_linked m) eqn:Hl; [|lia]. apply occ_pos in Hp.
        assert (Hbe : entry s b = Some m) by (by apply entry_heap).
        eapply (held_kid _ _ _ b m); [|done|done].
        eapply (IH (clock s - n_stamp m)); [|done|done].
        pose proof (i_stamp _ _ _ _ _ _ HH _ _ _ _ Hbe Hp He).
        pose proof (i_clock _ _ _ _ _ _ HH _ _ Hbe). lia.
    - intros (n&Hn&_)%held_entry; [|done]. apply entry_heap in Hn as [? _]. eauto.
  Qed.

  Lemma empty_at_end s : trk cfg = true → reachable s → quiescent s →
    vars s = ∅ → heap s = ∅.
  Proof.
    intros Et Hr Hq Hv. apply map_eq. intros a. rewrite lookup_empty.
    destruct (heap s !! a) as [n|] eqn:E; [|done]. exfalso.
    assert (held P FS s a) as Hh by (apply exact_contents; eauto).
    clear E. induction Hh as [x h Hx|b m a Hb IH Hm Ha]; [|done].
    by rewrite Hv, lookup_empty in Hx.
  Qed.

  (** C01 *)
  Definition log_ok (lg : list event) : Prop :=
    ∀ post pre x h r, lg = post ++ EvGet x h r :: pre →
      ∃ k, replay pre !! x = Some k ∧ eqv (p_key P r) k = true ∧ is_Some (p_val P r) ∧ good r.
  Definition vars_ok s : Prop := ∀ x,
    match vars s !! x with
    | Some (Some h) => ∃ n k, entry s h = Some n ∧ replay (log s) !! x = Some k ∧
        eqv (p_key P (n_rep n)) k = true
    | _ => replay (log s) !! x = None
    end.

  Lemma log_ok_cons lg e : log_ok lg → (∀ x h r, e ≠ EvGet x h r) → log_ok (e :: lg).
  Proof.
    intros Hl He post pre x h r E. destruct post as [|e' post]; simplify_eq/=; [by destruct (He x h r)|].
    by eapply Hl.
  Qed.
  Lemma log_ok_get lg x h r k : log_ok lg → replay lg !! x = Some k → eqv (p_key P r) k = true →
    is_Some (p_val P r) → good r → log_ok (EvGet x h r :: lg).
  Proof.
    intros Hl ???? post pre x' h' r' E. destruct post as [|e' post]; simplify_eq/=; [by eauto|].
    by eapply Hl.
  Qed.

  Lemma vars_ok_entries s s' : vars_ok s → vars s' = vars s → replay (log s') = replay (log s) →
    (∀ x h n, vars s !! x = Some (Some h) → entry s h = Some n → ∃ m, entry s' h = Some m ∧ n_rep m = n_rep n) →
    vars_ok s'.
  Proof.
    intros H Ev El He x. specialize (H x). rewrite Ev, El. destruct (vars s !! x) as [[h|]|] eqn:Ex; [|done..].
    destruct H as (n&k&Hn&Hk&E). destruct (He _ _ _ Ex Hn) as (m&Hm&Hr). exists m, k. by rewrite Hr.
  Qed.

  Lemma refine_step s l s' : Inv s → allowed (label_tid l) →
    vars_ok s ∧ log_ok (log s) → step s l = Next s' → vars_ok s' ∧ log_ok (log s').
  Proof.
    intros HI Hal [HV HL] Hstep.
    destruct (eff_step P FS cfg eqv good Heq HP HF t0 _ _ _ HI Hal Hstep)
      as [oe Hsh _ Hv Hlog|t c y p r0 rest a -> Hst Ha _ He Hvars Hlog
         |t c y h' p ks k rest m -> Hst Hm Hv _ _ _ He Hvars Hlog
         |t c i rest h' m -> Hst _ Hm Hc0 He Hvars Hlog].
    - destruct Hsh as [H1 _].
      assert (HV' : ∀ x, vars s' !! x = vars s !! x →
         replay (log s') !! x = replay (log s) !! x →
         match vars s' !! x with
         | Some (Some h) => ∃ n k, entry s' h = Some n ∧ replay (log s') !! x = Some k ∧
             eqv (p_key P (n_rep n)) k = true
         | _ => replay (log s') !! x = None
         end).
      { intros x E1 E2. specialize (HV x). rewrite E1, E2.
        destruct (vars s !! x) as [[h|]|]; [|done..]. destruct HV as (n&k&Hn&Hk&E).
        destruct (H1 _ _ Hn) as (m&Hm&Hr&_). exists m, k. by rewrite Hr. }
      assert (HVs : ∀ x h, vars s !! x = Some (Some h) → ∃ n k, entry s' h = Some n ∧
         replay (log s) !! x = Some k ∧ eqv (p_key P (n_rep n)) k = true).
      { intros x h Hx. specialize (HV x). rewrite Hx in HV. destruct HV as (n&k&Hn&Hk&E).
        destruct (H1 _ _ Hn) as (m&Hm&Hr&_). exists m, k. by rewrite Hr. }
      remember (vars s') as vs' eqn:Ev. symmetry in Ev.
      destruct Hv as [|t y p ys -> Hy|t c y h' k rest m' -> Hst Hy Hm' Hk'|t c y rest -> Hst Hy|t y z h' -> Hy Hz
        |t y z hx hy -> Hy Hz|t y z hx hy -> Hy Hz|t y h' -> Hy|t y h' m' -> Hy Hm' Hd|t y z path h0 h' m' -> Hy Hz Hin Hm' Hd]; simpl in Hlog;
        (split; [intros x; rewrite Ev|rewrite Hlog; first [done|by apply log_ok_cons|idtac]]).
      + apply HV'; [done|by rewrite Hlog].
      + destruct (decide (x = y)) as [->|Hne].
        * rewrite lookup_insert, Hlog. specialize (HV y). by rewrite Hy in HV.
        * apply HV'; [|by rewrite Hlog]. by rewrite lookup_insert_ne.
      + destruct (decide (x = y)) as [->|Hne].
        * rewrite lookup_insert, Hlog. simpl. destruct (H1 _ _ Hm') as (m&Hm&Hr&_). exists m, k.
          by rewrite lookup_insert, Hr.
        * apply HV'; [|rewrite Hlog; simpl]; by rewrite lookup_insert_ne.
      + destruct (decide (x = y)) as [->|Hne].
        * rewrite lookup_delete, Hlog. simpl. specialize (HV y). by rewrite Hy in HV.
        * apply HV'; [|by rewrite Hlog]; by rewrite lookup_delete_ne.
      + destruct (HVs _ _ Hz) as (n&k&Hn&Hk&E). destruct (decide (x = y)) as [->|Hne].
        * rewrite lookup_insert, Hlog. simpl. rewrite Hk. exists n, k. by rewrite lookup_insert.
        * apply HV'; [|rewrite Hlog; simpl; rewrite Hk]; by rewrite lookup_insert_ne.
      + destruct (HVs _ _ Hz) as (n&k&Hn&Hk&E). destruct (decide (x = y)) as [->|Hne].
        * rewrite lookup_insert, Hlog. simpl. rewrite Hk. exists n, k. by rewrite lookup_insert.
        * apply HV'; [|rewrite Hlog; simpl; rewrite Hk]; by rewrite lookup_insert_ne.
      + destruct (HVs _ _ Hz) as (n&k&Hn&Hk&E). destruct (HVs _ _ Hy) as (n2&k2&Hn2&Hk2&E2).
        destruct (decide (x = z)) as [->|Hnz].
        { rewrite lookup_insert, Hlog. simpl. rewrite Hk, Hk2. exists n2, k2. by rewrite lookup_insert. }
        destruct (decide (x = y)) as [->|Hne].
        { rewrite lookup_insert_ne, lookup_insert, Hlog by done. simpl. rewrite Hk, Hk2. exists n, k.
          by rewrite lookup_insert_ne, lookup_insert. }
        apply HV'; [|rewrite Hlog; simpl; rewrite Hk, Hk2]; by rewrite !lookup_insert_ne.
      + destruct (decide (x = y)) as [->|Hne].
        * rewrite lookup_delete, Hlog. simpl. by rewrite lookup_delete.
        * apply HV'; [|rewrite Hlog; simpl]; by rewrite lookup_delete_ne.
      + apply HV'; [done|by rewrite Hlog].
      + specialize (HV y). rewrite Hy in HV. destruct HV as (n&k&Hn&Hk&E). rewrite Hm' in Hn. simplify_eq.
        eapply log_ok_get; eauto. by eapply (i_good _ _ _ _ _ _ (i_H _ _ _ _ _ _ _ _ HI)).
      + destruct (decide (x = y)) as [->|Hne].
        * rewrite lookup_insert, Hlog. simpl. destruct (H1 _ _ Hm') as (m&Hm&Hr&_). exists m, (p_key P (n_rep m')).
          rewrite lookup_insert, Hr. split_and!; [done|done|]. apply (eqv_refl _ Heq).
        * apply HV'; [|rewrite Hlog; simpl]; by rewrite lookup_insert_ne.
    - split; [|by rewrite Hlog]. eapply vars_ok_entries; [done|done|by rewrite Hlog|].
      intros x h n Hx Hn. rewrite He. rewrite decide_False; [by eauto|]. intros ->.
      apply entry_heap in Hn as [? _]. congruence.
    - split; [|rewrite Hlog; by apply log_ok_cons]. eapply vars_ok_entries; [done|done|by rewrite Hlog|].
      intros x h n Hx Hn. rewrite He. rewrite decide_False; [by eauto|]. intros ->.
      destruct (var_entry _ _ _ HI Hx) as (n'&Hn'&[v Hd]). congruence.
    - split; [|rewrite Hlog; by apply log_ok_cons]. eapply vars_ok_entries; [done|done|by rewrite Hlog|].
      intros x h n Hx Hn. rewrite He. rewrite decide_False; [by eauto|]. intros ->.
      apply var_cnt in Hx. lia.
  Qed.

  Lemma refine s : reachable s → vars_ok s ∧ log_ok (log s).
  Proof.
    intros (ls&Hok&Hrun).
    eapply (run_ind (λ s, vars_ok s ∧ log_ok (log s)) (λ _, True)); [|by apply init_inv|by apply sched_allowed
      |by apply Forall_true| |done].
    - intros. by eapply refine_step.
    - split.
      + intros x. simpl. rewrite lookup_empty. by rewrite lookup_empty.
      + intros post pre x h r E. by destruct post.
  Qed.

  Lemma transparency s x : reachable s →
    match value_of s x with
    | Some (h, r) => ∃ k, replay (log s) !! x = Some k ∧ eqv (p_key P r) k = true
    | None => replay (log s) !! x = None
    end.
  Proof.
    intros Hr. pose proof (reach_inv _ Hr) as HI. destruct (refine _ Hr) as [HV _]. specialize (HV x).
    unfold value_of. destruct (vars s !! x) as [[h|]|]; [|done..].
    destruct HV as (n&k&Hn&Hk&E). apply entry_heap in Hn as [Hn _]. rewrite Hn. eauto.
  Qed.

  Lemma gets_transparent s post pre x h r : reachable s → log s = post ++ EvGet x h r :: pre →
    ∃ k, replay pre !! x = Some k ∧ eqv (p_key P r) k = true ∧ is_Some (p_val P r) ∧ good r.
  Proof. intros Hr. destruct (refine _ Hr) as [_ HL]. apply HL. Qed.

  (** C06 *)
  Lemma build_only_on_miss s l s' h k : reachable s → allowed (label_tid l) → step s l = Next s' →
    log s' = EvBuild h k :: log s →
    ∀ b n, entry s b = Some n → is_Some (p_val P (n_rep n)) → eqv (p_key P (n_rep n)) k = false.
  Proof.
    intros HI%reach_inv Hal Hstep Hlg b n Hn Hd.
    destruct (eff_step P FS cfg eqv good Heq HP HF t0 _ _ _ HI Hal Hstep)
      as [oe Hsh _ Hv Hlog|t c y p r0 rest a -> Hst Ha _ He Hvars Hlog
         |t c y h' p ks k' rest m -> Hst Hm Hv _ _ Hk He Hvars Hlog
         |t c i rest h' m -> Hst _ Hm Hc0 He Hvars Hlog]; rewrite Hlg in Hlog.
    - destruct Hv; simpl in Hlog; try done; by apply (f_equal length) in Hlog; simpl in Hlog; lia.
    - apply (f_equal length) in Hlog; simpl in Hlog; lia.
    - simplify_eq. destruct (eqv (p_key P (n_rep n)) k') eqn:E; [|done]. exfalso.
      assert (b = h') as ->.
      { eapply (i_uniq _ _ _ _ _ _ (i_H _ _ _ _ _ _ _ _ HI)); [done|done|].
        eapply (eqv_trans _ Heq); [done|]. by apply (eqv_sym _ Heq). }
      destruct Hd. congruence.
    - done.
  Qed.

  Definition life_ok s : Prop :=
    (∀ k, newest eqv k (log s) = Some true →
       ∃ a n, entry s a = Some n ∧ done_node n ∧ eqv (p_key P (n_rep n)) k = true) ∧
    (∀ post pre h k, log s = post ++ EvBuild h k :: pre → newest eqv k pre ≠ Some true).

  Lemma newest_skip (e : event) k lg : (∀ h k', e ≠ EvBuild h k') → (∀ h k', e ≠ EvErase h k') →
    newest eqv k (e :: lg) = newest eqv k lg.
  Proof. intros H1 H2. destruct e; simpl; try done; naive_solver. Qed.

  Lemma life_step s l s' : Inv s → allowed (label_tid l) → life_ok s → step s l = Next s' → life_ok s'.
  Proof.
    intros HI Hal [HN HB] Hstep.
    assert (Hmove : ∀ s', (∀ k, newest eqv k (log s') = newest eqv k (log s)) →
      (∀ a n, entry s a = Some n → done_node n → ∃ m, entry s' a = Some m ∧ n_rep m = n_rep n) →
      ∀ k, newest eqv k (log s') = Some true → 
       ∃ a n, entry s' a = Some n ∧ done_node n ∧ eqv (p_key P (n_rep n)) k = true).
    { intros s1 E1 E2 k Hk. rewrite E1 in Hk. destruct (HN _ Hk) as (a&n&Hn&Hd&E).
      destruct (E2 _ _ Hn Hd) as (m&Hm&Hr). exists a, m. by rewrite Hr. }
    assert (HBc : ∀ e, (∀ h k', e ≠ EvBuild h k') → ∀ post pre h k, e :: log s = post ++ EvBuild h k :: pre →
       newest eqv k pre ≠ Some true).
    { intros e He post pre h k E. destruct post; simplify_eq/=; [by edestruct He|]. by eapply HB. }
    destruct (eff_step P FS cfg eqv good Heq HP HF t0 _ _ _ HI Hal Hstep)
      as [oe [H1 _] _ Hv Hlog|t c y p r0 rest a -> Hst Ha _ He Hvars Hlog
         |t c y h' p ks k' rest m -> Hst Hm Hv Hbv Hbk Hk He Hvars Hlog
         |t c i rest h' m -> Hst Hi Hm Hc0 He Hvars Hlog].
    - split.
      + apply Hmove.
        * intros k. rewrite Hlog. destruct Hv; done.
        * intros a n Hn _. destruct (H1 _ _ Hn) as (m&Hm&Hr&_). eauto.
      + rewrite Hlog. destruct Hv; simpl; first [done|by apply HBc].
    - split; [|by rewrite Hlog]. apply Hmove; [by rewrite Hlog|].
      intros b n Hn _. exists n. rewrite He. rewrite decide_False; [done|]. intros ->.
      apply entry_heap in Hn as [? _]. congruence.
    - assert (Hno : ∀ k, eqv k' k = true → newest eqv k (log s) ≠ Some true).
      { intros k E Hk'. destruct (HN _ Hk') as (b&n&Hn&Hd&E').
        assert (b = h') as ->.
        { eapply (i_uniq _ _ _ _ _ _ (i_H _ _ _ _ _ _ _ _ HI)); [done|done|].
          eapply (eqv_trans _ Heq); [done|]. apply (eqv_sym _ Heq). by eapply (eqv_trans _ Heq). }
        destruct Hd. congruence. }
      split.
      + intros k. rewrite Hlog. simpl. destruct (eqv k' k) eqn:E.
        * intros _. exists h'. eexists. rewrite He, decide_True by done. split; [done|]. simpl. split; [done|].
          eapply (eqv_trans _ Heq); [done|]. by eapply (eqv_trans _ Heq).
        * intros Hk'. destruct (HN _ Hk') as (b&n&Hn&Hd&E'). exists b, n. rewrite He.
          rewrite decide_False; [done|]. intros ->. destruct Hd. congruence.
      + rewrite Hlog. intros post pre h k E. destruct post; simplify_eq/=; [|by eapply HB].
        apply Hno. apply (eqv_refl _ Heq).
    - split.
      + intros k. rewrite Hlog. simpl. destruct (eqv (p_key P (n_rep m)) k) eqn:E; [done|].
        intros Hk'. destruct (HN _ Hk') as (b&n&Hn&Hd&E'). exists b, n. rewrite He.
        rewrite decide_False; [done|]. intros ->. congruence.
      + rewrite Hlog. by apply HBc.
  Qed.

  Lemma life s : reachable s → life_ok s.
  Proof.
    intros (ls&Hok&Hrun).
    eapply (run_ind life_ok (λ _, True)); [|by apply init_inv|by apply sched_allowed
      |by apply Forall_true| |done].
    - intros. by eapply life_step.
    - split; [done|]. intros post pre h k E. by destruct post.
  Qed.

  (** no second construction while referenced *)
  Lemma no_build_while_held s ls s' x h r : reachable s → sched_ok cfg t0 ls →
    Forall (λ l, touches x l = false) ls → run s ls = Next s' → value_of s x = Some (h, r) →
    ∃ new, log s' = new ++ log s ∧
      ∀ h' k, EvBuild h' k ∈ new → eqv (p_key P r) k = false.
  Proof.
    intros Hr Hok Hto Hrun Hv. pose proof (reach_inv _ Hr) as HI.
    apply value_of_var in Hv as (Hx&n&Hn&Hnr&Hd); [|done].
    set (Q := λ s', stays x h r (n_stamp n) s' ∧ ∃ new, log s' = new ++ log s ∧
      ∀ h' k, EvBuild h' k ∈ new → eqv (p_key P r) k = false).
    assert (Q s') as [_ ?]; [|done].
    eapply (run_ind Q (λ l, touches x l = false)); [|done|by apply sched_allowed|done| |done].
    - intros s1 l s2 HI1 Hal Ht [Hs (new&Hlg&Hnew)] Hstep. split; [by eapply stays_step|].
      destruct Hs as (Hx1&n1&Hn1&Hnr1&_).
      destruct (eff_step P FS cfg eqv good Heq HP HF t0 _ _ _ HI1 Hal Hstep)
        as [oe [H1 _] _ Hv Hlog|t c y p r0 rest a -> Hst Ha _ He Hvars Hlog
         |t c y h' p ks k' rest m -> Hst Hm Hv Hbv Hbk Hk He Hvars Hlog
         |t c i rest h' m -> Hst Hi Hm Hc0 He Hvars Hlog]; rewrite Hlog, Hlg.
      + exists (option_list oe ++ new). split; [by rewrite app_assoc|].
        intros h' k [Hin|Hin]%elem_of_app; [|by eapply Hnew]. exfalso.
        destruct Hv; simpl in Hin; apply elem_of_list_singleton in Hin || apply elem_of_nil in Hin; done.
      + by exists new.
      + exists (EvBuild h' k' :: new). split; [done|].
        intros h1 k [Hin|Hin]%elem_of_cons; [|by eapply Hnew]. injection Hin as -> ->.
        destruct (eqv (p_key P r) k') eqn:E; [|done]. exfalso. rewrite <- Hnr1 in E.
        assert (h = h') as ->.
        { eapply (i_uniq _ _ _ _ _ _ (i_H _ _ _ _ _ _ _ _ HI1)); [done|done|].
          eapply (eqv_trans _ Heq); [done|]. by apply (eqv_sym _ Heq). }
        destruct (var_entry _ _ _ HI1 Hx1) as (?&?&[??]). congruence.
      + eexists (_ :: new). split; [done|].
        intros h1 k [Hin|Hin]%elem_of_cons; [done|by eapply Hnew].
    - split; [split; eauto|]. exists []. split; [done|]. intros h' k Hin. by apply elem_of_nil in Hin.
  Qed.

  (** C22 *)
  Lemma erase_only_unreferenced s l s' h k : reachable s → allowed (label_tid l) → step s l = Next s' →
    log s' = EvErase h k :: log s →
    (∀ x, vars s !! x ≠ Some (Some h)) ∧
    (∀ b n, entry s b = Some n → h ∉ p_kids P (n_rep n)) ∧
    (∀ t x k' ks, t ≠ label_tid l → ∀ i rest, stack s t = i :: rest →
       i ≠ IAddRef x h ks k' ∧ i ≠ IAddDel x h ks k' ∧ ∀ p, i ≠ IVisit x h p ks k') ∧
    (∀ t x k', IBind x h k' ∉ stack s t).
  Proof.
    intros HI%reach_inv Hal Hstep Hlg. pose proof HI as [HH HC HS].
    destruct (eff_step P FS cfg eqv good Heq HP HF t0 _ _ _ HI Hal Hstep)
      as [oe Hsh _ Hv Hlog|t c y p r0 rest a -> Hst Ha _ He Hvars Hlog
         |t c y h' p ks k' rest m -> Hst Hm Hv _ _ Hk He Hvars Hlog
         |t c i rest h' m -> Hst Hi Hm Hc0 He Hvars Hlog]; rewrite Hlg in Hlog.
    - destruct Hv; simpl in Hlog; try done; by apply (f_equal length) in Hlog; simpl in Hlog; lia.
    - apply (f_equal length) in Hlog; simpl in Hlog; lia.
    - done.
    - simplify_eq. simpl.
      assert (Hu : ulk i = 1) by (destruct Hi as [(->&_)|(?&?&?&?&->&_)]; done).
      split_and!.
      + intros x Hx%var_cnt. lia.
      + intros b n Hb Hin. pose proof (kid_cnt P FS s _ _ _ Hb Hin). lia.
      + intros t' x k' ks Hne j rest' Hj.
        assert (Hz : ulk j = 0).
        { destruct (ulk j) eqn:E; [done|]. exfalso. apply Hne.
          eapply (excl FS cfg t0 s); [done| |]; [rewrite Hj|rewrite Hst]; rewrite lsum_cons; lia. }
        split; [intros E; by rewrite E in Hz|]. split; [intros E; by rewrite E in Hz|]. intros p E; by rewrite E in Hz.
      + intros t' x k' Hin. pose proof (tsum_elem _ (own P h') s t' _ Hin) as Hge. simpl in Hge.
        rewrite at_eq in Hge. unfold CoreInv.cnt in Hc0. lia.
  Qed.

  Lemma hnd_done s a : Inv s → 0 < cnt s a → ∃ n, entry s a = Some n ∧ done_node n.
  Proof. intros HI. apply (i_hnd _ _ _ _ _ (i_C _ _ _ _ _ _ _ _ HI)). Qed.

  (** every stored entry is referenced, or about to be erased, or selected
      by a creation in progress *)
  Lemma why_stored s a n : trk cfg = true → reachable s → entry s a = Some n →
    (∃ x, vars s !! x = Some (Some a)) ∨
    (∃ b m, entry s b = Some m ∧ a ∈ p_kids P (n_rep m)) ∨
    (∃ t i, i ∈ stack s t ∧
      match i with
      | ILockFind _ _ r | IFind _ _ r => a ∈ p_kids P r
      | IVisit _ h _ ks _ | IAddRef _ h ks _ | IAddDel _ h ks _ => h = a ∨ a ∈ ks
      | IRelease h | IBind _ h _ | ILockCheck h | ICheck h => h = a
      | _ => False
      end).
  Proof.
    intros Et HI%reach_inv Hn. pose proof HI as [HH HC HS].
    assert (Hfind : ∀ f, 0 < tsum f s → ∃ t i, i ∈ stack s t ∧ 0 < f i).
    { intros f (t&k&Hk&Hp)%msum_pos. apply lsum_pos in Hp as (i&Hi&?). exists t, i.
      unfold stack. by rewrite Hk. }
    assert (Hat : ∀ h, 0 < at_ a h → h = a) by (intros h; unfold at_; case_decide; [done|lia]).
    destruct (i_why _ _ _ _ _ HC Et _ _ Hn) as [Hc|[Hp|Hp]].
    - unfold CoreInv.cnt in Hc.
      assert (Hcase : 0 < vsum a s ∨ 0 < hsum a s ∨ 0 < tsum (own P a) s) by lia.
      destruct Hcase as [Hv|[Hh|Hh]].
      + left. apply msum_pos in Hv as (x&[h|]&Hx&Hp); simpl in Hp; [|lia]. apply Hat in Hp as ->. eauto.
      + right; left. apply msum_pos in Hh as (b&m&Hb&Hp). unfold CoreInv.ncount in Hp.
        destruct (n_linked m) eqn:Hl; [|lia]. apply occ_pos in Hp. exists b, m. split; [|done].
        by apply entry_heap.
      + right; right. apply Hfind in Hh as (t&i&Hi&Hpos). exists t, i. split; [done|].
        destruct i; simpl in Hpos; try lia; try (by apply occ_pos); try (by apply Hat);
          try (right; by apply occ_pos).
        destruct (decide (h = a)); [by left|right]. rewrite at_ne in Hpos by done. by apply occ_pos.
    - right; right. apply Hfind in Hp as (t&i&Hi&Hpos). exists t, i. split; [done|].
      destruct i; simpl in Hpos; try lia; by apply Hat.
    - right; right. apply Hfind in Hp as (t&i&Hi&Hpos). exists t, i. split; [done|].
      destruct i; simpl in Hpos; try lia; left; by apply Hat.
  Qed.
End Props.
