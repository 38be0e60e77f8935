(** Properties of the core machine [Core.v]; vocabulary in [CoreSpec.v].

    [P] is any value policy satisfying [policy_ok] (the library's three do:
    [Policies.v]), [FS] any factory satisfying [factory_spec] (hashed_factory,
    set_factory and a user's do: [HashedFactoryProofs.v], [SetFactoryProofs.v],
    [ListFactory.v]), [eqv]
    the factory's equivalence on keys, [cfg] the tracking and locking
    policies.  [sched_ok cfg t0 ls]: with no_locking only thread [t0] is
    used. *)
From Verif Require Import CoreRace Instances.

(** ** Concrete run used by the examples: [Instances.demo] *)
Definition ex : state iFS := final iP iFS rc demo.
Lemma ex_reachable : reachable iP iFS rc 0 ex.
Proof. by apply final_reachable; vm_compute. Qed.
Definition exn : state iFS := final iP iFS nt demo.
Lemma exn_reachable : reachable iP iFS nt 0 exn.
Proof. by apply final_reachable; vm_compute. Qed.

(** solve [step s l = Next ?] / [run s ls = Next ?] by computation *)
Ltac go := lazymatch goal with
  | |- step _ _ _ _ _ = Next _ => apply next_ok; vm_compute; reflexivity
  | |- run _ _ _ _ _ = Next _ => apply nexts_ok; vm_compute; reflexivity
  end.

Section Properties.
  Context {K A R V : Type}.
  Context (P : policy K A R V) (FS : factory K) (cfg : config).
  Context (eqv : K → K → bool) (good : R → Prop).
  Context (Heq : equivalence eqv) (HP : policy_ok eqv good P) (HF : factory_spec eqv FS).
  Context (t0 : tid).

  (** C01: whatever the schedule, every usable object holds a fully
      constructed value whose key is equivalent to the key an outside
      observer keeps for it under plain-value semantics, and an object is
      usable exactly when the observer thinks so. *)
  Theorem C01_value_transparency ls s x :
    sched_ok cfg t0 ls → run P FS cfg (init FS) ls = Next s →
    match value_of s x with
    | Some (h, r) => ∃ k, o_vals (watch P FS cfg (init FS) (Obs ∅ ∅) ls) !! x = Some k ∧
        eqv (p_key P r) k = true
    | None => o_vals (watch P FS cfg (init FS) (Obs ∅ ∅) ls) !! x = None
    end.
  Proof. exact (observer_transparency P FS cfg eqv good Heq HP HF t0 ls s x). Qed.

  (** and get() returns that value *)
  Theorem C01_get s t x s' :
    reachable P FS cfg t0 s → (lck cfg = false → t = t0) →
    step P FS cfg s (LStart t (OGet x)) = Next s' →
    ∃ h r, value_of s x = Some (h, r) ∧ log s' = EvGet x h r :: log s ∧ is_Some (p_val P r) ∧
      ∀ z, value_of s' z = value_of s z.
  Proof. exact (get_step P FS cfg eqv good Heq HP HF t0 s t x s'). Qed.

  (** C02 *)
  Theorem C02_sharing s x y hx rx hy ry :
    reachable P FS cfg t0 s →
    value_of s x = Some (hx, rx) → value_of s y = Some (hy, ry) →
    (hx = hy ↔ eqv (p_key P rx) (p_key P ry) = true).
  Proof. exact (sharing P FS cfg eqv good Heq HP HF t0 s x y hx rx hy ry). Qed.

  (** also: the factory never stores two equivalent entries *)
  Theorem C02_unique s a b n m :
    reachable P FS cfg t0 s → entry s a = Some n → entry s b = Some m →
    eqv (p_key P (n_rep n)) (p_key P (n_rep m)) = true → a = b.
  Proof. exact (stored_unique P FS cfg eqv good Heq HP HF t0 s a b n m). Qed.

  (** C03 *)
  Theorem C03_stability s ls s' x h r :
    reachable P FS cfg t0 s → sched_ok cfg t0 ls →
    Forall (λ l, touches x l = false) ls → run P FS cfg s ls = Next s' →
    value_of s x = Some (h, r) → value_of s' x = Some (h, r).
  Proof. exact (stability P FS cfg eqv good Heq HP HF t0 s ls s' x h r). Qed.

  (** C04 *)
  Theorem C04_exact_contents s a :
    trk cfg = true → reachable P FS cfg t0 s → quiescent s →
    (∃ n, heap s !! a = Some n) ↔ held P FS s a.
  Proof. exact (exact_contents P FS cfg eqv good Heq HP HF t0 s a). Qed.

  Theorem C04_empty_at_end s :
    trk cfg = true → reachable P FS cfg t0 s → quiescent s → vars s = ∅ →
    heap s = ∅ ∧ ∀ k, f_find FS (cont s) (kview P s) k = NotFound.
  Proof.
    intros Ht Hr Hq Hv. pose proof (empty_at_end P FS cfg eqv good Heq HP HF t0 s Ht Hr Hq Hv) as He.
    split; [exact He|]. intros k. pose proof (lookup_exact P FS cfg eqv good Heq HP HF t0 s k Hr) as Hl.
    destruct (f_find FS (cont s) (kview P s) k); [|done|done].
    destruct Hl as (n&Hn&_). unfold entry in Hn. by rewrite He, lookup_empty in Hn.
  Qed.

  (** the container answers lookups according to the entries in memory *)
  Theorem C04_lookup s k :
    reachable P FS cfg t0 s →
    match f_find FS (cont s) (kview P s) k with
    | Found a => ∃ n, entry s a = Some n ∧ eqv (p_key P (n_rep n)) k = true
    | NotFound => ∀ a n, entry s a = Some n → eqv (p_key P (n_rep n)) k = false
    | BadRead => False
    end.
  Proof. exact (lookup_exact P FS cfg eqv good Heq HP HF t0 s k). Qed.

  (** C05 *)
  Theorem C05_no_tracking_forever s ls s' a n :
    trk cfg = false → reachable P FS cfg t0 s → sched_ok cfg t0 ls →
    run P FS cfg s ls = Next s' → entry s a = Some n → is_Some (p_val P (n_rep n)) →
    ∃ n', entry s' a = Some n' ∧ n_rep n' = n_rep n.
  Proof. exact (kept_forever P FS cfg eqv good Heq HP HF t0 s ls s' a n). Qed.

  (** C06: a value is constructed only when no constructed entry is
      equivalent; *)
  Theorem C06_build_only_on_miss s l s' h k :
    reachable P FS cfg t0 s → (lck cfg = false → label_tid l = t0) → step P FS cfg s l = Next s' →
    log s' = EvBuild h k :: log s →
    ∀ b n, entry s b = Some n → is_Some (p_val P (n_rep n)) → eqv (p_key P (n_rep n)) k = false.
  Proof. exact (build_only_on_miss P FS cfg eqv good Heq HP HF t0 s l s' h k). Qed.

  (** between two constructions for equivalent keys there is an erasure; *)
  Theorem C06_once_per_life s post pre h k :
    reachable P FS cfg t0 s → log s = post ++ EvBuild h k :: pre → newest eqv k pre ≠ Some true.
  Proof. intros Hr. apply (proj2 (life P FS cfg eqv good Heq HP HF t0 s Hr)). Qed.

  (** none while a flyweight refers to an equivalent key. *)
  Theorem C06_none_while_held s ls s' x h r :
    reachable P FS cfg t0 s → sched_ok cfg t0 ls →
    Forall (λ l, touches x l = false) ls → run P FS cfg s ls = Next s' → value_of s x = Some (h, r) →
    ∃ new, log s' = new ++ log s ∧ ∀ h' k, EvBuild h' k ∈ new → eqv (p_key P r) k = false.
  Proof. exact (no_build_while_held P FS cfg eqv good Heq HP HF t0 s ls s' x h r). Qed.

  (** C06/C07: complete outcome of one construction run without
      interruption: either it threw and nothing is left of it (variables,
      stored values, counters, lock), or it succeeded and the new object
      shares the equivalent entry, or a new entry was added, its value having
      been constructed exactly once. *)
  Theorem C07_construction_outcome s t x p ys s1 cs s2 :
    reachable P FS cfg t0 s → (lck cfg = false → t = t0) →
    step P FS cfg s (LStart t (ONew x p ys)) = Next s1 →
    run P FS cfg s1 (map (LRun t) cs) = Next s2 → stack s2 t = [] →
    (∀ t', t' ≠ t → stack s2 t' = stack s t') ∧
    (lck cfg = true → lock s2 = lock s) ∧
    ∃ ks, Forall2 (λ y h, vars s !! y = Some (Some h)) ys ks ∧
    ((vars s2 = vars s ∧ (∀ b, shape FS s2 b = shape FS s b) ∧
       (trk cfg = true → ∀ b, entry s2 b = entry s b) ∧
       ∃ es, log s2 = EvThrow x :: es ++ log s ∧ (es = [] ∨ ∃ h k, es = [EvErase h k])) ∨
     (∃ r h bs, p_make P p ks = Some r ∧ vars s2 = <[x:=Some h]> (vars s) ∧
       log s2 = EvNew x (p_key P r) :: bs ++ log s ∧ content P FS eqv s s2 p r h bs)).
  Proof. exact (new_outcome P FS cfg eqv good Heq HP HF t0 s t x p ys s1 cs s2). Qed.

  (** retry: a later construction whose constructors do not throw succeeds *)
  Theorem C07_retry s t x p ys ks r :
    reachable P FS cfg t0 s → (lck cfg = false → t = t0) → stack s t = [] →
    (lck cfg = true → lock s = None) → vars s !! x = None →
    Forall2 (λ y h, vars s !! y = Some (Some h)) ys ks → p_make P p ks = Some r →
    ∃ s1 cs s2, step P FS cfg s (LStart t (ONew x p ys)) = Next s1 ∧
      Forall (λ c, c_throw c = false) cs ∧
      run P FS cfg s1 (map (LRun t) cs) = Next s2 ∧ stack s2 t = [] ∧
      ∃ h bs, vars s2 = <[x:=Some h]> (vars s) ∧ content P FS eqv s s2 p r h bs.
  Proof. exact (new_succeeds P FS cfg eqv good Heq HP HF t0 s t x p ys ks r). Qed.

  (** under any interleaving: an entry without value exists only while the
      thread constructing it is at work *)
  Theorem C07_no_residue s a n :
    reachable P FS cfg t0 s → entry s a = Some n → p_val P (n_rep n) = None →
    (∃ t x p ks k rest, stack s t = IVisit x a p ks k :: rest) ∧ ∀ x, vars s !! x ≠ Some (Some a).
  Proof.
    intros Hr Hn Hv. pose proof (reach_inv P FS cfg eqv good Heq HP HF t0 s Hr) as HI.
    destruct (i_undone _ _ _ _ _ (i_C _ _ _ _ _ _ _ _ HI) a n Hn Hv) as (Hc&_&H). split; [exact H|].
    intros x Hx. pose proof (var_cnt P FS s x a Hx). lia.
  Qed.

  (** C08 *)
  Theorem C08_copy s t x y s' :
    reachable P FS cfg t0 s → (lck cfg = false → t = t0) → step P FS cfg s (LStart t (OCopy x y)) = Next s' →
    value_of s' x = value_of s y ∧ is_Some (value_of s y) ∧
    (∀ z, z ≠ x → value_of s' z = value_of s z) ∧ ∀ t', stack s' t' = stack s t'.
  Proof. exact (copy_step P FS cfg eqv good Heq HP HF t0 s t x y s'). Qed.

  Theorem C08_assign s t x y s' :
    reachable P FS cfg t0 s → (lck cfg = false → t = t0) → step P FS cfg s (LStart t (OAssign x y)) = Next s' →
    value_of s' x = value_of s y ∧ is_Some (value_of s y) ∧ ∀ z, z ≠ x → value_of s' z = value_of s z.
  Proof. exact (assign_step P FS cfg eqv good Heq HP HF t0 s t x y s'). Qed.

  (** when the target already has the new value, nothing of the old one has
      been given up yet: no entry is erased and no counter is lower *)
  Theorem C08_order s t x y s' :
    reachable P FS cfg t0 s → (lck cfg = false → t = t0) → step P FS cfg s (LStart t (OAssign x y)) = Next s' →
    log s' = EvAssign x y :: log s ∧ cont s' = cont s ∧
    ∃ hx hy, vars s !! x = Some (Some hx) ∧ vars s !! y = Some (Some hy) ∧ vars s' !! x = Some (Some hy) ∧
      stack s' t = [IRelease hx] ∧
      ∀ b n, entry s b = Some n → ∃ n', entry s' b = Some n' ∧ n_rep n' = n_rep n ∧ n_del n' = n_del n ∧
        n_ref n' = (n_ref n + (if trk cfg && bool_decide (b = hy) then 1 else 0))%Z.
  Proof. exact (assign_order P FS cfg eqv good Heq HP HF t0 s t x y s'). Qed.

  Theorem C08_self_assign s t x s1 cs s2 :
    reachable P FS cfg t0 s → (lck cfg = false → t = t0) → step P FS cfg s (LStart t (OAssign x x)) = Next s1 →
    run P FS cfg s1 (map (LRun t) cs) = Next s2 → stack s2 t = [] →
    vars s2 = vars s ∧ (∀ b, entry s2 b = entry s b) ∧ cont s2 = cont s ∧ lock s2 = lock s ∧
    log s2 = EvAssign x x :: log s.
  Proof. exact (self_assign P FS cfg eqv good Heq HP HF t0 s t x s1 cs s2). Qed.

  Theorem C08_assign_value s t x tmp p ys s1 cs1 s2 s3 cs2 s4 s5 cs3 s6 :
    reachable P FS cfg t0 s → (lck cfg = false → t = t0) → x ≠ tmp →
    step P FS cfg s (LStart t (ONew tmp p ys)) = Next s1 → run P FS cfg s1 (map (LRun t) cs1) = Next s2 →
    stack s2 t = [] →
    match vars s2 !! tmp with
    | None => ∀ z, value_of s2 z = value_of s z
    | Some _ =>
        step P FS cfg s2 (LStart t (OAssign x tmp)) = Next s3 → run P FS cfg s3 (map (LRun t) cs2) = Next s4 →
        stack s4 t = [] →
        step P FS cfg s4 (LStart t (ODestroy tmp)) = Next s5 → run P FS cfg s5 (map (LRun t) cs3) = Next s6 →
        stack s6 t = [] →
        ∃ ks r k, Forall2 (λ y h, vars s !! y = Some (Some h)) ys ks ∧ p_make P p ks = Some r ∧
          key_of P FS s6 x = Some k ∧ eqv k (p_key P r) = true ∧
          ∀ z a, z ≠ x → value_of s z = Some a → value_of s6 z = Some a
    end.
  Proof. exact (assign_value P FS cfg eqv good Heq HP HF t0 s t x tmp p ys s1 cs1 s2 s3 cs2 s4 s5 cs3 s6). Qed.

  Theorem C08_destroy s t x s' :
    reachable P FS cfg t0 s → (lck cfg = false → t = t0) → step P FS cfg s (LStart t (ODestroy x)) = Next s' →
    vars s' = delete x (vars s) ∧ ∀ z, z ≠ x → value_of s' z = value_of s z.
  Proof. exact (destroy_step P FS cfg eqv good Heq HP HF t0 s t x s'). Qed.

  (** C09 *)
  Theorem C09_swap s t x y s' :
    reachable P FS cfg t0 s → (lck cfg = false → t = t0) → step P FS cfg s (LStart t (OSwap x y)) = Next s' →
    value_of s' x = value_of s y ∧ value_of s' y = value_of s x ∧
    (∀ z, z ≠ x → z ≠ y → value_of s' z = value_of s z) ∧
    (∀ b, heap s' !! b = heap s !! b) ∧ cont s' = cont s ∧ (∀ t', stack s' t' = stack s t') ∧
    lock s' = lock s ∧ log s' = EvSwap x y :: log s.
  Proof. exact (swap_step P FS cfg eqv good Heq HP HF t0 s t x y s'). Qed.

  (** C17: composite values *)
  Theorem C17_composite_release s :
    trk cfg = true → reachable P FS cfg t0 s →
    (* every continuation without new calls is finite, and UB free *)
    (∃ n, ∀ ls, sched_ok cfg t0 ls → Forall is_run ls →
       effective P FS cfg s ls ≤ n ∧ run P FS cfg s ls ≠ Undef) ∧
    (* it can be completed *)
    (∃ ls s', sched_ok cfg t0 ls ∧ Forall is_run ls ∧ run P FS cfg s ls = Next s' ∧ quiescent s') ∧
    (* and whenever complete, exactly the values still reachable remain *)
    (∀ ls s', sched_ok cfg t0 ls → Forall is_run ls → run P FS cfg s ls = Next s' → quiescent s' →
       ∀ a, (∃ n, heap s' !! a = Some n) ↔ held P FS s' a).
  Proof.
    intros Ht Hr. pose proof (reach_inv P FS cfg eqv good Heq HP HF t0 s Hr) as HI. split_and!.
    - exists (work P FS s). intros ls Hok Hrun. split.
      + eapply (bounded_run P FS cfg eqv good Heq HP HF t0); [done| |done]. by apply sched_allowed.
      + by destruct (run_ok P FS cfg eqv good Heq HP HF t0 ls s HI (sched_allowed cfg t0 ls Hok)) as (s'&->&_).
    - destruct (can_finish P FS cfg eqv good Heq HP HF t0 s HI) as (ls&s'&H1&H2&H3&H4).
      exists ls, s'. split_and!; try done. intros El. eapply Forall_impl; [exact H1|]. intros l Hl. by apply Hl.
    - intros ls s' Hok _ Hrun Hq a. eapply exact_contents; [done..| |done]. by eapply reach_run.
  Qed.

  (** C20, C24: no undefined behaviour (access to a destroyed entry, double
      erasure, unlocking a mutex not owned, get() before the value was
      constructed) *)
  Theorem C20_no_undefined_behaviour ls :
    sched_ok cfg t0 ls → ∃ s, run P FS cfg (init FS) ls = Next s.
  Proof. exact (never_undef P FS cfg eqv good Heq HP HF t0 ls). Qed.

  Theorem C24_value_constructed s x h :
    reachable P FS cfg t0 s → vars s !! x = Some (Some h) →
    ∃ r, value_of s x = Some (h, r) ∧ is_Some (p_val P r) ∧ good r.
  Proof. exact (no_dangling P FS cfg eqv good Heq HP HF t0 s x h). Qed.

  (** C21: no two threads are ever about to access the container, the same
      deleter count or the same value, except for get() ... *)
  Theorem C21_no_data_race s t t' i i' rest rest' l w w' :
    reachable P FS cfg t0 s → t ≠ t' →
    stack s t = i :: rest → stack s t' = i' :: rest' →
    accesses P FS s i l w → accesses P FS s i' l w' → False.
  Proof. exact (no_race P FS cfg eqv good Heq HP HF t0 s t t' i i' rest rest' l w w'). Qed.

  (** ... which reads values nobody is about to write. *)
  Theorem C21_get_race_free s x h t i rest :
    reachable P FS cfg t0 s → vars s !! x = Some (Some h) →
    stack s t = i :: rest → ¬ accesses P FS s i (LVal h) true.
  Proof. exact (no_race_get P FS cfg eqv good Heq HP HF t0 s x h t i rest). Qed.

  Theorem C21_locked s t i rest l w :
    lck cfg = true → reachable P FS cfg t0 s → stack s t = i :: rest → accesses P FS s i l w →
    (∃ d, lock s = Some (t, d)) ∨ ∃ h, i = IFree h ∧ entry s h = None.
  Proof. exact (access_locked P FS cfg eqv good Heq HP HF t0 s t i rest l w). Qed.

  (** every change of the container, of a stored value or of a deleter count
      is made by the owner of the lock *)
  Theorem C21_changes_locked s l s' :
    lck cfg = true → reachable P FS cfg t0 s → step P FS cfg s l = Next s' →
    (cont s' ≠ cont s ∨ ∃ a, shared_part <$> entry s' a ≠ shared_part <$> entry s a) →
    ∃ d, lock s = Some (label_tid l, d).
  Proof.
    intros El Hr. apply (lock_discipline P FS cfg eqv good HF t0 s l s'); [|by intros ?; congruence|done].
    by eapply reach_inv.
  Qed.

  (** C22 *)
  Theorem C22_erase_only_unreferenced s l s' h k :
    reachable P FS cfg t0 s → (lck cfg = false → label_tid l = t0) → step P FS cfg s l = Next s' →
    log s' = EvErase h k :: log s →
    (∀ x, vars s !! x ≠ Some (Some h)) ∧
    (∀ b n, entry s b = Some n → h ∉ p_kids P (n_rep n)) ∧
    (∀ t x k' ks, t ≠ label_tid l → ∀ i rest, stack s t = i :: rest →
       i ≠ IAddRef x h ks k' ∧ i ≠ IAddDel x h ks k' ∧ ∀ p, i ≠ IVisit x h p ks k') ∧
    (∀ t x k', IBind x h k' ∉ stack s t).
  Proof. exact (erase_only_unreferenced P FS cfg eqv good Heq HP HF t0 s l s' h k). Qed.

  (** an entry stays only as long as somebody is responsible for it *)
  Theorem C22_why_stored s a n :
    trk cfg = true → reachable P FS cfg t0 s → entry s a = Some n →
    (∃ x, vars s !! x = Some (Some a)) ∨
    (∃ b m, entry s b = Some m ∧ a ∈ p_kids P (n_rep m)) ∨
    (∃ t i, i ∈ stack s t ∧
      match i with
      | ILockFind _ _ r | IFind _ _ r => a ∈ p_kids P r
      | IVisit _ h _ ks _ | IAddRef _ h ks _ | IAddDel _ h ks _ => h = a ∨ a ∈ ks
      | IRelease h | IBind _ h _ | ILockCheck h | ICheck h => h = a
      | _ => False
      end).
  Proof. exact (why_stored P FS cfg eqv good Heq HP HF t0 s a n). Qed.

  (** C23 *)
  Theorem C23_deadlock_freedom s :
    reachable P FS cfg t0 s →
    (* somebody can move *)
    (∀ t, stack s t ≠ [] → ∃ t' c s', step P FS cfg s (LRun t' c) = Next s') ∧
    (* the owner of the lock can move *)
    (lck cfg = true → ∀ t d, lock s = Some (t, d) → ∃ c s', step P FS cfg s (LRun t c) = Next s') ∧
    (* no lock is held when nothing is in progress *)
    (lck cfg = true → quiescent s → lock s = None) ∧
    (* the number of steps all threads can still take without new calls is bounded *)
    (∃ n, ∀ ls, sched_ok cfg t0 ls → Forall is_run ls → effective P FS cfg s ls ≤ n) ∧
    (* a thread not kept out by another one completes its call *)
    (∀ t, (lck cfg = false → t = t0) →
       (lck cfg = true → match lock s with None => True | Some (t', _) => t' = t end) →
       ∃ cs s', run P FS cfg s (map (LRun t) cs) = Next s' ∧ stack s' t = []).
  Proof.
    intros Hr. pose proof (reach_inv P FS cfg eqv good Heq HP HF t0 s Hr) as HI. split_and!.
    - intros t Ht. destruct (progress P FS cfg eqv good Heq HP HF t0 s t HI Ht) as (t'&c&s'&_&H). eauto.
    - intros El t d Hl. destruct (owner_busy P FS cfg eqv good HF t0 s t d HI El Hl) as (_&_&Hne).
      destruct (can_step P FS cfg eqv good Heq HP HF t0 s t HI) as (c&s'&_&H); [by intros ?; congruence|done|by rewrite Hl|].
      eauto.
    - by apply (quiescent_unlocked P FS cfg eqv good HF t0).
    - exists (work P FS s). intros ls Hok Hrun.
      eapply (bounded_run P FS cfg eqv good Heq HP HF t0); [done| |done]. by apply sched_allowed.
    - intros t Hal Hl. destruct (finish_alone P FS cfg eqv good Heq HP HF t0 s t HI Hal Hl) as (cs&s'&_&H1&H2&_). eauto.
  Qed.

  (** C25: one thread, no locking *)
  Theorem C25_no_locking_single_thread ls :
    lck cfg = false → Forall (λ l, label_tid l = t0) ls →
    ∃ s, run P FS cfg (init FS) ls = Next s ∧
      (∀ x y hx rx hy ry, value_of s x = Some (hx, rx) → value_of s y = Some (hy, ry) →
         (hx = hy ↔ eqv (p_key P rx) (p_key P ry) = true)) ∧
      (∀ x h, vars s !! x = Some (Some h) → ∃ r, value_of s x = Some (h, r) ∧ is_Some (p_val P r) ∧ good r) ∧
      (∀ x, match value_of s x with
            | Some (h, r) => ∃ k, o_vals (watch P FS cfg (init FS) (Obs ∅ ∅) ls) !! x = Some k ∧
                eqv (p_key P r) k = true
            | None => o_vals (watch P FS cfg (init FS) (Obs ∅ ∅) ls) !! x = None
            end) ∧
      (trk cfg = true → quiescent s → ∀ a, (∃ n, heap s !! a = Some n) ↔ held P FS s a).
  Proof.
    intros El Hls. assert (Hok : sched_ok cfg t0 ls) by (by intros _).
    destruct (never_undef P FS cfg eqv good Heq HP HF t0 ls Hok) as [s Hs]. exists s.
    assert (Hr : reachable P FS cfg t0 s) by (by exists ls). split_and!; [done|..].
    - intros. by eapply sharing.
    - intros. by eapply no_dangling.
    - intros x. by eapply observer_transparency.
    - intros. by eapply exact_contents.
  Qed.
End Properties.

(** ** Concrete, non-trivial cases *)
(** objects 0 (7) and 1 (17) share; 3 is a composite holding 0 and 2 *)
Example ex_values :
  value_of ex 0 = Some (100, Prep (7, []) (Some 49)) ∧ value_of ex 1 = Some (100, Prep (7, []) (Some 49)) ∧
  value_of ex 2 = Some (102, Prep (3, []) (Some 9)) ∧ value_of ex 3 = Some (103, Prep (5, [100; 102]) (Some 25)).
Proof. by vm_compute. Qed.
Example C01_example : sched_ok rc 0 demo ∧ run iP iFS rc (init iFS) demo = Next ex ∧
  o_vals (watch iP iFS rc (init iFS) (Obs ∅ ∅) demo) !! 1 = Some (17, []).
Proof. split; [done|]. split; [by apply final_ok; vm_compute|by vm_compute]. Qed.
Example C01_get_example : reachable iP iFS rc 0 ex ∧ ∃ s', step iP iFS rc ex (LStart 2 (OGet 3)) = Next s'.
Proof. split; [exact ex_reachable|]. eexists. go. Qed.
Example C02_example : reachable iP iFS rc 0 ex ∧ value_of ex 0 = Some (100, Prep (7, []) (Some 49)) ∧
  value_of ex 2 = Some (102, Prep (3, []) (Some 9)) ∧ 100 ≠ 102 ∧ ieq (7, []) (3, []) = false ∧ ieq (7, []) (17, []) = true.
Proof. split; [exact ex_reachable|]. by vm_compute. Qed.
Definition later : list label := call 1 (ODestroy 1) 0 ++ call 2 (OAssign 0 2) 0 ++ call 1 (ODestroy 3) 0.
Example C03_example : reachable iP iFS rc 0 ex ∧ Forall (λ l, touches (A:=nat) 4 l = false) later ∧
  (∃ s', run iP iFS rc ex later = Next s' ∧ value_of s' 0 = value_of ex 2) ∧ is_Some (value_of ex 4).
Proof.
  split; [exact ex_reachable|]. split; [repeat constructor|]. split; [|vm_compute; eauto].
  eexists. split; [go|]. by vm_compute.
Qed.
Example C04_example : trk rc = true ∧ reachable iP iFS rc 0 ex ∧ quiescent ex ∧ held iP iFS ex 100 ∧
  length (map_to_list (heap ex)) = 3.
Proof.
  split; [done|]. split; [exact ex_reachable|]. split; [by apply quiescent_by; vm_compute|].
  split; [by apply (held_var _ _ _ 0); vm_compute|by vm_compute].
Qed.
Definition all_gone : list label := concat (map (λ x, call 1 (ODestroy x) 0) [0; 1; 2; 3; 4]).
Example C04_empty_example : ∃ s, run iP iFS rc ex all_gone = Next s ∧ quiescent s ∧ vars s = ∅ ∧ heap s = ∅ ∧
  length (log s) = 17.
Proof.
  eexists. split; [go|]. split; [by apply quiescent_by; vm_compute|].
  split; [by apply map_to_list_empty_iff; vm_compute|]. split; [by apply map_to_list_empty_iff; vm_compute|by vm_compute].
Qed.
Example C05_example : trk nt = false ∧ reachable iP iFS nt 0 exn ∧
  ∃ s', run iP iFS nt exn all_gone = Next s' ∧ vars s' = ∅ ∧ length (map_to_list (heap s')) = 3.
Proof.
  split; [done|]. split; [exact exn_reachable|]. eexists. split; [go|].
  split; [by apply map_to_list_empty_iff; vm_compute|by vm_compute].
Qed.
(** a build step *)
Definition missing : list label := call 1 (ODestroy 3) 0 ++ call 1 (ODestroy 4) 0 ++ call 1 (ODestroy 2) 0 ++
  [LStart 2 (ONew 9 3 []); LRun 2 (Choice 102 false); LRun 2 (Choice 102 false)].
Example C06_example : ∃ l s s', reachable iP iFS rc 0 s ∧ step iP iFS rc s l = Next s' ∧
  log s' = EvBuild 102 (3, []) :: log s ∧ length (map_to_list (heap s)) = 2.
Proof.
  exists (LRun 2 (Choice 0 false)), (final iP iFS rc (demo ++ missing)). eexists.
  split; [by apply final_reachable; vm_compute|]. split; [go|]. by vm_compute.
Qed.
Example C06_held_example : reachable iP iFS rc 0 ex ∧
  ∃ s', run iP iFS rc ex (call 1 (ODestroy 0) 0 ++ call 2 (ONew 7 27 []) 105) = Next s' ∧ value_of s' 7 = value_of ex 1.
Proof. split; [exact ex_reachable|]. eexists. split; [go|]. by vm_compute. Qed.
(** constructions that throw before the search, and in the value
    constructor *)
Example C07_example : reachable iP iFS rc 0 ex ∧
  ∃ s1 s2, step iP iFS rc ex (LStart 1 (ONew 8 6 [0])) = Next s1 ∧
    run iP iFS rc s1 (map (LRun 1) (replicate 20 (Choice 107 true))) = Next s2 ∧ stack s2 1 = [] ∧
    vars s2 !! 8 = None.
Proof. split; [exact ex_reachable|]. eexists _, _. split; [go|]. split; [go|]. by vm_compute. Qed.
Example C07_example_late : ∃ s1 s2, step iP iFS rc ex (LStart 1 (ONew 8 6 [0])) = Next s1 ∧
    run iP iFS rc s1 (map (LRun 1) (replicate 2 (Choice 107 false) ++ replicate 20 (Choice 107 true))) = Next s2 ∧
    stack s2 1 = [] ∧ log s2 = EvThrow 8 :: EvErase 107 (6, [100]) :: log ex.
Proof. eexists _, _. split; [go|]. split; [go|]. by vm_compute. Qed.
Example C07_retry_example : reachable iP iFS rc 0 ex ∧ stack ex 1 = [] ∧ lock ex = None ∧ vars ex !! 8 = None ∧
  Forall2 (λ y h, vars ex !! y = Some (Some h)) [0] [100] ∧ p_make iP 6 [100] = Some (Prep (6, [100]) None).
Proof.
  split; [exact ex_reachable|]. split_and!; try by vm_compute. constructor; [by vm_compute|constructor].
Qed.
Example C07_no_residue_example : ∃ s, reachable iP iFS rc 0 s ∧
  entry s 107 = Some (Node (Prep (6, [100]) None) 0 0 true 3).
Proof.
  exists (final iP iFS rc (demo ++ [LStart 1 (ONew 8 6 [0]); LRun 1 (Choice 0 false); LRun 1 (Choice 107 false)])).
  split; [|by vm_compute]. by apply final_reachable; vm_compute.
Qed.
Example C08_example : reachable iP iFS rc 0 ex ∧
  (∃ s', step iP iFS rc ex (LStart 1 (OCopy 9 3)) = Next s') ∧
  (∃ s', step iP iFS rc ex (LStart 1 (OAssign 2 3)) = Next s') ∧
  (∃ s1 s2, step iP iFS rc ex (LStart 1 (OAssign 3 3)) = Next s1 ∧
     run iP iFS rc s1 (map (LRun 1) [Choice 0 false]) = Next s2 ∧ stack s2 1 = []) ∧
  (∃ s', step iP iFS rc ex (LStart 1 (ODestroy 3)) = Next s').
Proof.
  split; [exact ex_reachable|]. split_and!; try (eexists; go).
  eexists _, _. split; [go|]. split; [go|]. by vm_compute.
Qed.
Example C08_assign_value_example : ∃ s1 s2 s3 s4 s5 s6,
  step iP iFS rc ex (LStart 1 (ONew 50 8 [2])) = Next s1 ∧
  run iP iFS rc s1 (map (LRun 1) (replicate 30 (Choice 110 false))) = Next s2 ∧
  stack s2 1 = [] ∧ step iP iFS rc s2 (LStart 1 (OAssign 0 50)) = Next s3 ∧
  run iP iFS rc s3 (map (LRun 1) (replicate 30 (Choice 110 false))) = Next s4 ∧
  stack s4 1 = [] ∧ step iP iFS rc s4 (LStart 1 (ODestroy 50)) = Next s5 ∧
  run iP iFS rc s5 (map (LRun 1) (replicate 30 (Choice 110 false))) = Next s6 ∧
  stack s6 1 = [] ∧ value_of s6 0 = Some (110, Prep (8, [102]) (Some 64)).
Proof.
  eexists _, _, _, _, _, _. split; [go|]. split; [go|]. split; [by vm_compute|]. split; [go|]. split; [go|].
  split; [by vm_compute|]. split; [go|]. split; [go|]. by vm_compute.
Qed.
Example C09_example : reachable iP iFS rc 0 ex ∧ (∃ s', step iP iFS rc ex (LStart 1 (OSwap 0 3)) = Next s') ∧
  value_of ex 0 ≠ value_of ex 3.
Proof. split; [exact ex_reachable|]. split; [eexists; go|]. by vm_compute. Qed.
(** a composite whose last reference is being dropped: everything inside
    goes with it *)
Example C17_example : ∃ s s', reachable iP iFS rc 0 s ∧ length (map_to_list (heap s)) = 3 ∧
  run iP iFS rc s (replicate 40 (LRun 1 (Choice 0 false))) = Next s' ∧ quiescent s' ∧ heap s' = ∅.
Proof.
  exists (final iP iFS rc (demo ++ concat (map (λ x, call 1 (ODestroy x) 0) [0; 1; 2; 3]) ++ [LStart 1 (ODestroy 4)])).
  eexists. split; [by apply final_reachable; vm_compute|]. split; [by vm_compute|].
  split; [go|]. split; [by apply quiescent_by; vm_compute|by apply map_to_list_empty_iff; vm_compute].
Qed.
Example C24_example : reachable iP iFS rc 0 ex ∧ vars ex !! 3 = Some (Some 103).
Proof. split; [exact ex_reachable|]. by vm_compute. Qed.
(** two threads in the middle of operations on the same entry: thread 1
    holds the lock to check for erasure, thread 2 waits to create *)
Definition busy : list label :=
  call 1 (ONew 0 7 []) 100 ++ [LStart 1 (ODestroy 0); LStart 2 (ONew 1 17 []); LRun 1 (Choice 0 false); LRun 1 (Choice 0 false)].
Definition exb : state iFS := final iP iFS rc busy.
Lemma exb_reachable : reachable iP iFS rc 0 exb.
Proof. by apply final_reachable; vm_compute. Qed.
Example C21_example : reachable iP iFS rc 0 exb ∧ stack exb 1 = [ICheck 100] ∧
  stack exb 2 = [ILockFind 1 17 (Prep (17, []) None)] ∧ lock exb = Some (1, 1) ∧
  accesses iP iFS exb (ICheck 100) LCont true.
Proof.
  split; [exact exb_reachable|]. split_and!; try by vm_compute.
  right. split; [by left|]. eexists. split; [vm_compute; reflexivity|by vm_compute].
Qed.
Example C22_example : reachable iP iFS rc 0 exb ∧ ∃ s', step iP iFS rc exb (LRun 1 (Choice 0 false)) = Next s' ∧
  log s' = EvErase 100 (7, []) :: log exb.
Proof. split; [exact exb_reachable|]. eexists. split; [go|]. by vm_compute. Qed.
(** takeover: thread 2 finds the entry thread 1 is about to check *)
Definition takeover : list label :=
  call 1 (ONew 0 7 []) 100 ++ [LStart 1 (ODestroy 0); LRun 1 (Choice 0 false)] ++ call 2 (ONew 1 17 []) 101 ++
  replicate 10 (LRun 1 (Choice 0 false)).
Example C22_takeover_example : ∃ s, reachable iP iFS rc 0 s ∧ quiescent s ∧
  value_of s 1 = Some (100, Prep (7, []) (Some 49)) ∧
  entry s 100 = Some (Node (Prep (7, []) (Some 49)) 1 1 true 0).
Proof.
  exists (final iP iFS rc takeover). split; [by apply final_reachable; vm_compute|].
  split; [by apply quiescent_by; vm_compute|]. by vm_compute.
Qed.
Example C23_example : reachable iP iFS rc 0 exb ∧ stack exb 2 ≠ [] ∧ lock exb = Some (1, 1).
Proof. split; [exact exb_reachable|]. by vm_compute. Qed.
Definition solo : list label := call 1 (ONew 0 7 []) 100 ++ call 1 (ONew 1 17 []) 101 ++ call 1 (ODestroy 0) 0.
Example C25_example : lck rc1 = false ∧ Forall (λ l : label, label_tid l = 1) solo ∧
  ∃ s, run iP iFS rc1 (init iFS) solo = Next s ∧ value_of s 1 = Some (100, Prep (7, []) (Some 49)).
Proof. split; [done|]. split; [repeat constructor|]. eexists. split; [go|]. by vm_compute. Qed.

(** C26: with no_locking and two threads, all of this fails: there are
    schedules with a data race on the container and schedules that access a
    destroyed entry (the latter even taking container operations to be
    atomic). *)
Definition unlucky : list label :=
  call 1 (ONew 0 7 []) 100 ++
      [LStart 1 (ODestroy 0); LStart 2 (ONew 1 17 []);
       LRun 2 (Choice 0 false); LRun 2 (Choice 0 false);                     (* 2 finds the entry *)
       LRun 1 (Choice 0 false); LRun 1 (Choice 0 false); LRun 1 (Choice 0 false);  (* 1 erases it *)
       LRun 2 (Choice 0 false)].
Theorem C26_no_locking_two_threads_refuted :
  (∃ ls s t t' i i' rest rest', run iP iFS rc1 (init iFS) ls = Next s ∧ t ≠ t' ∧
     stack s t = i :: rest ∧ stack s t' = i' :: rest' ∧
     accesses iP iFS s i LCont true ∧ accesses iP iFS s i' LCont true) ∧
  (∃ ls, run iP iFS rc1 (init iFS) ls = Undef).
Proof.
  split.
  - exists [LStart 1 (ONew 0 7 []); LStart 2 (ONew 1 17 []); LRun 1 (Choice 0 false); LRun 2 (Choice 0 false)].
    eexists _, 1, 2, _, _, _, _. split; [go|]. split; [done|].
    split; [vm_compute; reflexivity|]. split; [vm_compute; reflexivity|]. split; by left.
  - exists unlucky. vm_compute. reflexivity.
Qed.
(** the same schedule is harmless with simple_locking *)
Example C26_locked_example : ∃ s, run iP iFS rc (init iFS) unlucky = Next s.
Proof. eexists. go. Qed.

Print Assumptions C01_value_transparency.
Print Assumptions C01_get.
Print Assumptions C02_sharing.
Print Assumptions C02_unique.
Print Assumptions C03_stability.
Print Assumptions C04_exact_contents.
Print Assumptions C04_empty_at_end.
Print Assumptions C04_lookup.
Print Assumptions C05_no_tracking_forever.
Print Assumptions C06_build_only_on_miss.
Print Assumptions C06_once_per_life.
Print Assumptions C06_none_while_held.
Print Assumptions C07_construction_outcome.
Print Assumptions C07_retry.
Print Assumptions C07_no_residue.
Print Assumptions C08_copy.
Print Assumptions C08_assign.
Print Assumptions C08_order.
Print Assumptions C08_self_assign.
Print Assumptions C08_assign_value.
Print Assumptions C08_destroy.
Print Assumptions C09_swap.
Print Assumptions C17_composite_release.
Print Assumptions C20_no_undefined_behaviour.
Print Assumptions C24_value_constructed.
Print Assumptions C21_no_data_race.
Print Assumptions C21_get_race_free.
Print Assumptions C21_locked.
Print Assumptions C21_changes_locked.
Print Assumptions C22_erase_only_unreferenced.
Print Assumptions C22_why_stored.
Print Assumptions C23_deadlock_freedom.
Print Assumptions C25_no_locking_single_thread.
Print Assumptions C26_no_locking_two_threads_refuted.
