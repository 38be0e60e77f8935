(** Absence of data races on the plain (non-atomic) shared locations.

    Locations: the container with its links; the deleter count of an entry;
    the stored rep (value/key) of an entry.  [accesses] lists the plain
    accesses the next micro-instruction of a thread would make (true:
    write). *)
From Verif Require Export CoreOps.

Inductive loc := LCont | LDel (a : addr) | LVal (a : addr).

Section Accesses.
  Context {K A R V : Type}.
  Context (P : policy K A R V) (FS : factory K).
  Notation state := (state (R:=R) (K:=K) (A:=A) FS).
  Notation instr := (instr (K:=K) (A:=A) (R:=R)).

  Definition accesses (s : state) (i : instr) (l : loc) (w : bool) : Prop :=
    match i with
    | IFind _ _ _ =>                       (* search reads the keys of stored entries, then links a node *)
        l = LCont ∨ ∃ b n, entry s b = Some n ∧ l = LVal b ∧ w = false
    | IVisit _ h _ _ _ =>                  (* value_cted ? ; construction ; on exception erasure *)
        (l = LVal h ∧ (w = false ∨ ∃ n, entry s h = Some n ∧ p_val P (n_rep n) = None)) ∨
        (l = LCont ∧ ∃ n, entry s h = Some n ∧ p_val P (n_rep n) = None)
    | IAddDel _ h _ _ => l = LDel h
    | ICheck h =>                          (* --del_ref==0 ? erase *)
        l = LDel h ∨
        ((l = LCont ∨ l = LVal h) ∧ ∃ n, entry s h = Some n ∧ n_del n = 1%Z)
    | IFree h => l = LVal h ∨ l = LDel h
    | _ => False
    end.
End Accesses.

Section Race.
  Context {K A R V : Type}.
  Context (P : policy K A R V) (FS : factory K) (cfg : config).
  Context (eqv : K → K → bool) (good : R → Prop).
  Context (Heq : equivalence eqv) (HP : policy_ok eqv good P) (HF : factory_spec eqv FS).
  Context (t0 : tid).

  Notation state := (state (R:=R) (K:=K) (A:=A) FS).
  Notation instr := (instr (K:=K) (A:=A) (R:=R)).
  Notation Inv := (Inv P FS cfg eqv good HF t0).
  Notation allowed := (allowed cfg t0).
  Notation reachable := (reachable P FS cfg t0).
  Notation accesses := (accesses P FS).
  Implicit Types (s : state).

  Lemma crit_excl s t i rest t' i' rest' : Inv s → stack s t = i :: rest → stack s t' = i' :: rest' →
    0 < ulk i → 0 < ulk i' → t = t'.
  Proof.
    intros HI E E' U U'. destruct (lck cfg) eqn:El.
    - destruct (crit_owner P FS cfg eqv good HF t0 s t i rest HI El E U) as [d Hd].
      destruct (crit_owner P FS cfg eqv good HF t0 s t' i' rest' HI El E' U') as [d' Hd']. congruence.
    - destruct HI as [_ _ HS]. pose proof (i_solo _ _ _ _ HS El) as Hs.
      destruct (decide (t = t0)) as [->|]; [|rewrite Hs in E by done; done].
      destruct (decide (t' = t0)) as [->|]; [done|]. rewrite Hs in E' by done. done.
  Qed.

  Lemma freeing_heap s t h rest : Inv s → stack s t = IFree h :: rest →
    ∃ n, heap s !! h = Some n ∧ n_linked n = false ∧ ∀ t' rest', stack s t' = IFree h :: rest' → t' = t.
  Proof.
    intros [_ HC _] E. pose proof (i_free _ _ _ _ _ HC h) as Hf.
    pose proof (tsum_elem FS (freeing h) s t (IFree h)) as Hge. rewrite E in Hge.
    assert (1 ≤ tsum FS (freeing h) s) as H1. { simpl in Hge. rewrite at_eq in Hge. apply Hge. by left. }
    destruct (heap s !! h) as [n|]; [|lia]. exists n. destruct (n_linked n) eqn:El; simpl in Hf; [lia|].
    split_and!; [done..|]. intros t' rest' E'. destruct (decide (t' = t)) as [|Hne]; [done|exfalso].
    pose proof (tsum_set FS (freeing h) s t []) as Hs.
    pose proof (tsum_ge FS (freeing h) (set_stack t [] s) t') as Hg. rewrite stack_set, decide_False in Hg by done.
    rewrite E', lsum_cons in Hg. simpl in Hg. rewrite at_eq in Hg. rewrite E, lsum_cons, lsum_nil in Hs. simpl in Hs.
    rewrite at_eq in Hs. lia.
  Qed.

  Lemma live_access s t i rest l w : Inv s → stack s t = i :: rest → accesses s i l w → 0 < ulk i →
    match l with LCont => True | LDel a | LVal a => ∃ n, entry s a = Some n end.
  Proof.
    intros HI E Ha Hu. destruct HI as [HH HC HS]. pose proof (i_head _ _ _ _ _ HC _ _ _ E) as Hhd.
    destruct i; simpl in *; try done; try lia.
    - destruct Ha as [->|(b&n&?&->&_)]; eauto.
    - destruct Ha as [(->&_)|(->&_)]; [|done]. destruct Hhd as (n&?&_). eauto.
    - subst l. destruct Hhd as (n&?&_). eauto.
    - assert (Hp : 0 < tsum FS (pend h) s).
      { pose proof (tsum_elem FS (pend h) s t (ICheck h)) as Hge. rewrite E in Hge.
        simpl in Hge. rewrite at_eq in Hge. apply Hge. by left. }
      destruct (i_pend _ _ _ _ _ HC h Hp) as (n&Hn&_).
      destruct Ha as [->|([->| ->]&_)]; eauto.
  Qed.

  Lemma no_race s t t' i i' rest rest' l w w' : reachable s → t ≠ t' →
    stack s t = i :: rest → stack s t' = i' :: rest' →
    accesses s i l w → accesses s i' l w' → False.
  Proof.
    intros Hre Hne E E' Ha Ha'. pose proof (reach_inv P FS cfg eqv good Heq HP HF t0 s Hre) as HI.
    assert (Hi : ∀ j l w, accesses s j l w → 0 < ulk j ∨ ∃ h, j = IFree h ∧ (l = LVal h ∨ l = LDel h)).
    { intros j. destruct j; simpl; try (by left; lia); try done. right. eauto. }
    destruct (Hi _ _ _ Ha) as [U|(h&->&Hl)], (Hi _ _ _ Ha') as [U'|(h'&->&Hl')].
    - apply Hne. by eapply crit_excl.
    - pose proof (live_access s t i rest l w HI E Ha U) as Hlive.
      destruct (freeing_heap s t' h' rest' HI E') as (n&Hh&Hu&_).
      destruct Hl' as [-> | ->]; destruct Hlive as [m Hm]; apply entry_heap in Hm as [Hm Hm']; congruence.
    - pose proof (live_access s t' i' rest' l w' HI E' Ha' U') as Hlive.
      destruct (freeing_heap s t h rest HI E) as (n&Hh&Hu&_).
      destruct Hl as [-> | ->]; destruct Hlive as [m Hm]; apply entry_heap in Hm as [Hm Hm']; congruence.
    - assert (h' = h) as -> by (destruct Hl, Hl'; congruence).
      destruct (freeing_heap s t h rest HI E) as (n&Hh&Hu&Huniq). apply Hne. symmetry. by eapply Huniq.
  Qed.

  (** get() reads the value of a flyweight: no thread is about to write it *)
  Lemma no_race_get s x h t i rest : reachable s → vars s !! x = Some (Some h) →
    stack s t = i :: rest → ¬ accesses s i (LVal h) true.
  Proof.
    intros Hre Hx E Ha. pose proof (reach_inv P FS cfg eqv good Heq HP HF t0 s Hre) as HI.
    pose proof (var_cnt P FS s x h Hx) as Hcn.
    destruct (var_entry P FS cfg eqv good HF t0 s x h HI Hx) as (n&Hn&_).
    destruct i as [y p r|y p r|y g p ks k|y g ks k|y g ks k| |g|g|g|g|y g k|y]; simpl in Ha; try done.
    - destruct Ha as [?|(b&m&_&_&?)]; done.
    - destruct Ha as [(Eh&[?|(m&Hm&Hv)])|(?&_)]; [done| |done]. injection Eh as <-.
      destruct HI as [_ HC _]. destruct (i_undone _ _ _ _ _ HC h m Hm Hv) as (Hc0&_). lia.
    - destruct Ha as [?|([?|Eh]&m&Hm&Hd)]; [done|done|]. injection Eh as <-.
      destruct HI as [_ HC HS].
      assert (Et : trk cfg = true).
      { eapply (i_trk _ _ _ _ _ HC t (ICheck h)). rewrite E. by left. }
      assert (Hp1 : 0 < tsum FS (pend h) s).
      { pose proof (tsum_elem FS (pend h) s t (ICheck h)) as Hge. rewrite E in Hge.
        simpl in Hge. rewrite at_eq in Hge. apply Hge. by left. }
      assert (Hdel := i_del _ _ _ _ _ HC Et _ _ Hm).
      rewrite (addel_only P FS cfg eqv good Heq HP t0 s t _ rest h HS E) in Hdel by done. simpl in Hdel.
      rewrite bool_decide_true in Hdel by lia. simpl in Hdel. lia.
    - destruct Ha as [Eh|?]; [|done]. injection Eh as <-.
      destruct (freeing_heap s t h rest HI E) as (m&Hm&Hu&_). apply entry_heap in Hn as [Hn Hl]. congruence.
  Qed.

  (** the accesses listed are made with the lock held, except the final
      deallocation of an entry that nobody can reach any more *)
  Lemma access_locked s t i rest l w : lck cfg = true → reachable s → stack s t = i :: rest → accesses s i l w →
    (∃ d, lock s = Some (t, d)) ∨ ∃ h, i = IFree h ∧ entry s h = None.
  Proof.
    intros El Hre E Ha. pose proof (reach_inv P FS cfg eqv good Heq HP HF t0 s Hre) as HI.
    destruct (decide (0 < ulk i)) as [U|U].
    - left. by eapply crit_owner.
    - right. destruct i; simpl in *; try done; try lia. exists h. split; [done|].
      destruct (freeing_heap s t h rest HI E) as (m&Hm&Hu&_). unfold entry. by rewrite Hm, Hu.
  Qed.

  (** C04: what a lookup in the container can find *)
  Lemma lookup_exact s k : reachable s →
    match f_find FS (cont s) (kview P s) k with
    | Found a => ∃ n, entry s a = Some n ∧ eqv (p_key P (n_rep n)) k = true
    | NotFound => ∀ a n, entry s a = Some n → eqv (p_key P (n_rep n)) k = false
    | BadRead => False
    end.
  Proof.
    intros Hre. pose proof (reach_inv P FS cfg eqv good Heq HP HF t0 s Hre) as [HH _ _].
    pose proof (i_fac _ _ _ _ _ _ HH) as Hf.
    destruct (f_find FS (cont s) (kview P s) k) as [a| |] eqn:E.
    - destruct (fi_found _ _ HF _ _ _ _ _ Hf E) as (Ha&k'&Hk&Hkk). apply kview_inv in Hk as (n&Hn&->). eauto.
    - intros a n Hn. eapply (fi_notfound _ _ HF); [exact Hf|exact E|apply elem_of_linked; eauto|by apply kview_entry].
    - by apply (fi_goodread _ _ HF _ _ _ k Hf).
  Qed.
End Race.
