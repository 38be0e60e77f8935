(** Properties of serialization ([Serialize.v]; vocabulary in
    [SerializeSpec.v]) and of nested keys ([SerRec.v]).

    Saving and loading are interleaved with arbitrary activity of the program
    (creations, destructions, other threads, allocator choices): labels
    [SCore] and [LCore]. *)
From Verif Require Import SerializeProofs SerRecProofs Instances PropCore.

(** ** Concrete programs for the examples: plain numbers as keys, equivalent
    modulo 10; 13 cannot be constructed. *)
Definition nmk (a : nat) (ks : list addr) : option nat :=
  match ks with [] => if decide (a = 13) then None else Some a | _ => None end.
Definition neq (k l : nat) : bool := bool_decide (k mod 10 = l mod 10).
Definition nP : policy nat nat nat nat := default_policy nmk (λ _, []).
Definition nFS : factory nat := hashed_factory (λ k, k mod 10) neq 1 igrow.
Lemma neq_equivalence : equivalence neq.
Proof.
  unfold neq. split.
  - intros k. by apply bool_decide_true.
  - intros k l H%bool_decide_eq_true. by apply bool_decide_true.
  - intros k l m H1%bool_decide_eq_true H2%bool_decide_eq_true. apply bool_decide_true. congruence.
Qed.
Lemma nP_ok : policy_ok neq (λ _, True) nP.
Proof. apply default_policy_ok. intros a ks v H. unfold nmk in H. destruct ks; [done|]. done. Qed.
Definition nHF : factory_spec neq nFS.
Proof. apply hashed_factory_spec; [apply neq_equivalence|]. by intros k l H%bool_decide_eq_true. Defined.
Lemma nP_arg k r : p_make nP k [] = Some r → p_key nP r = k.
Proof. simpl. case_decide; naive_solver. Qed.
Definition nc : codec nat nat := Codec _ _ (λ n, [n]) (λ l, match l with n :: l => Some (n, l) | [] => None end).
Lemma nc_ok : codec_ok nc.
Proof. by intros x rest. Qed.

(** saving program: 0:=7 1:=3 2:=17; save 0, 1, 2, destroy 1 and 0, create
    3:=3 and 5:=4 asking for the freed addresses, save 3, 5, 2 *)
Definition save_prog : list (slabel (A:=nat)) :=
  map SCore (call 1 (ONew 0 7 []) 100 ++ call 1 (ONew 1 3 []) 101 ++ call 2 (ONew 2 17 []) 102) ++
  [SBegin 1 0; SEnd 60; SBegin 1 1; SEnd 61; SBegin 1 2] ++
  map SCore (call 1 (ODestroy 1) 0 ++ call 1 (ODestroy 0) 0 ++ call 2 (ONew 3 3 []) 101 ++
             call 2 (ONew 5 4 []) 102) ++
  [SBegin 2 3; SBegin 2 5; SEnd 62; SBegin 2 2].
Definition save_end : sstate (K:=nat) (A:=nat) (R:=nat) (W:=nat) nFS :=
  match srun nP nFS rc nc nc (sinit nFS (init nFS)) save_prog with Ok st => st | _ => sinit nFS (init nFS) end.

(** loading program: objects 0..5 all hold 0 (and 6 holds 27); one load each,
    step by step; the allocator may use address [a], table element [z] *)
Definition load_one (x z : var) (a : addr) : list (llabel (A:=nat) (W:=nat)) :=
  LBegin 1 x 50 :: concat (replicate 40 [LCore (LRun 1 (Choice a false)); LNext false z []]).
Definition load_start : state (K:=nat) (A:=nat) (R:=nat) nFS :=
  final nP nFS rc (call 1 (ONew 0 0 []) 200 ++ call 1 (OCopy 1 0) 0 ++ call 1 (OCopy 2 0) 0 ++ call 1 (OCopy 3 0) 0 ++
    call 1 (OCopy 4 0) 0 ++ call 1 (OCopy 5 0) 0 ++ call 2 (ONew 6 27 []) 201).
Definition load_prog : list (llabel (A:=nat) (W:=nat)) :=
  load_one 0 70 300 ++ load_one 1 71 301 ++ load_one 2 72 302 ++ load_one 3 73 303 ++ load_one 4 74 304 ++ load_one 5 75 305.
Lemma load_start_reachable : reachable nP nFS rc 0 load_start.
Proof. by apply final_reachable; vm_compute. Qed.

Definition after_load (i : list nat) (ls : list (llabel (A:=nat) (W:=nat))) : lstate (K:=nat) (A:=nat) (R:=nat) (W:=nat) nFS :=
  match lrun nP nFS rc nc nc id (linit nFS load_start i) ls with Ok st => st | _ => linit nFS load_start i end.
Definition key_at (S : lstate (K:=nat) (A:=nat) (R:=nat) (W:=nat) nFS) (x : var) := key_of nP nFS (ld_core S) x.

Section Properties.
  Context {K A R V W : Type}.
  Context (P : policy K A R V) (FS : factory K) (cfg : config).
  Context (ci : codec nat W) (ck : codec K W) (arg : K → A).
  Context (eqv : K → K → bool) (good : R → Prop).
  Context (Heq : equivalence eqv) (HP : policy_ok eqv good P) (HF : factory_spec eqv FS).
  Context (Harg : ∀ k r, p_make P (arg k) [] = Some r → p_key P r = k).
  Context (t0 : tid).

  (** C34, C35: whatever happens between the saves, what has been written when
      no save is in progress is the canonical archive of the keys saved *)
  Theorem C35_archive_determined s ls :
    reachable P FS cfg t0 s → ssched_ok cfg t0 ls →
    ∃ S, srun P FS cfg ci ck (sinit FS s) ls = Ok S ∧
      (sv_pc S = None → sv_out S = archive ci ck eqv (saved P FS cfg ci ck (sinit FS s) ls)).
  Proof. exact (save_archive P FS cfg ci ck eqv good Heq HP HF t0 s ls). Qed.

  (** C34: in a canonical archive no two keys stored are equivalent *)
  Theorem C34_keys_once ks i j k k' :
    omap snd (canon eqv [] ks) !! i = Some k → omap snd (canon eqv [] ks) !! j = Some k' → i ≠ j →
    eqv k k' = false ∧ eqv k' k = false.
  Proof.
    intros Hi Hj Hne.
    assert (Hd : ∀ i j k k', omap snd (canon eqv [] ks) !! i = Some k → omap snd (canon eqv [] ks) !! j = Some k' → i < j →
                 eqv k k' = false).
    { clear. intros i j k k' Hi Hj Hlt. pose proof (canon_keys eqv ks []) as E. simpl in E. rewrite E in Hi, Hj.
      by eapply (canon_distinct eqv ks []). }
    assert (Hs : eqv k k' = eqv k' k).
    { destruct (eqv k k') eqn:E1, (eqv k' k) eqn:E2; try done.
      - apply (eqv_sym _ Heq) in E1. congruence.
      - apply (eqv_sym _ Heq) in E2. congruence. }
    destruct (decide (i < j)).
    - rewrite <- Hs. split; by eapply (Hd i j).
    - rewrite Hs. split; by eapply (Hd j i); try lia.
  Qed.

  (** and an index is the number of keys stored so far when a key follows,
      less otherwise *)
  Theorem C34_index_range ks pre n o post :
    canon eqv [] ks = pre ++ (n, o) :: post →
    match o with Some _ => n = length (omap snd pre) | None => n < length (omap snd pre) end.
  Proof.
    intros H. pose proof (canon_index eqv pre post n o ks [] H) as Hc. simpl in Hc. by destruct o.
  Qed.

  (** C33: two programs with the same key equivalence (the loading one may use
      another factory, tracking and locking).  The keys of the objects loaded
      so far are equivalent to those saved, in order. *)
  Section Round.
    Context (FS2 : factory K) (HF2 : factory_spec eqv FS2) (cfg2 : config) (t2 : tid).
    Theorem C33_round_trip s ls S s2 ls2 tail os rest :
      codec_ok ci → codec_ok ck →
      reachable P FS cfg t0 s → ssched_ok cfg t0 ls →
      srun P FS cfg ci ck (sinit FS s) ls = Ok S → sv_pc S = None →
      reachable P FS2 cfg2 t2 s2 → lsched_ok cfg2 t2 ls2 →
      loaded P FS2 cfg2 ci ck arg (linit FS2 s2 (sv_out S ++ tail)) ls2 = map Some os ++ rest →
      length os ≤ length (saved P FS cfg ci ck (sinit FS s) ls) →
      Forall2 (λ o k, eqv o k = true) os (take (length os) (saved P FS cfg ci ck (sinit FS s) ls)).
    Proof.
      intros Hci Hck Hr Hok HS Hpc Hr2 Hok2 Hl Hlen.
      destruct (save_archive P FS cfg ci ck eqv good Heq HP HF t0 s ls Hr Hok) as (S'&HS'&Ho).
      rewrite HS in HS'. injection HS' as <-. rewrite (Ho Hpc) in Hl.
      destruct (lrel_run P FS2 cfg2 ci ck arg eqv good Heq HP HF2 Harg t2 ls2 (linit FS2 s2 (archive ci ck eqv (saved P FS cfg ci ck (sinit FS s) ls) ++ tail)) [] _ None
        (lrel_init P FS2 cfg2 ci ck eqv t2 s2 _ Hr2) (lsched_allowed cfg2 t2 ls2 Hok2)) as (S2&_&_&H).
      specialize (H os rest Hl).
      pose proof (reads_canon ci ck eqv Heq tail (length os) Hci Hck _ [] Hlen) as Hc.
      unfold archive in H. revert H Hc. generalize (reads ci ck [] (concat (map (words ci ck) (canon eqv [] (saved P FS cfg ci ck (sinit FS s) ls))) ++ tail) (length os)).
      generalize (take (length os) (saved P FS cfg ci ck (sinit FS s) ls)). clear -Heq.
      intros ks ms H. revert ks. induction H as [|o m os ms E H IH]; intros ks Hc.
      - inversion Hc. constructor.
      - inversion Hc as [|m' k ms' ks' E2 Hc']. subst. constructor; [by eapply (eqv_trans _ Heq)|by apply IH].
    Qed.

    (** sharing: loaded objects are equivalent exactly when the saved ones
        were (hence, by [C02_sharing], equal) *)
    Theorem C33_sharing s ls S s2 ls2 tail os rest i j oi oj ki kj :
      codec_ok ci → codec_ok ck →
      reachable P FS cfg t0 s → ssched_ok cfg t0 ls →
      srun P FS cfg ci ck (sinit FS s) ls = Ok S → sv_pc S = None →
      reachable P FS2 cfg2 t2 s2 → lsched_ok cfg2 t2 ls2 →
      loaded P FS2 cfg2 ci ck arg (linit FS2 s2 (sv_out S ++ tail)) ls2 = map Some os ++ rest →
      length os ≤ length (saved P FS cfg ci ck (sinit FS s) ls) →
      os !! i = Some oi → os !! j = Some oj →
      saved P FS cfg ci ck (sinit FS s) ls !! i = Some ki → saved P FS cfg ci ck (sinit FS s) ls !! j = Some kj →
      eqv oi oj = eqv ki kj.
    Proof.
      intros Hci Hck Hr Hok HS Hpc Hr2 Hok2 Hl Hlen Hoi Hoj Hki Hkj.
      pose proof (C33_round_trip _ _ _ _ _ _ _ _ Hci Hck Hr Hok HS Hpc Hr2 Hok2 Hl Hlen) as HF'.
      pose proof (lookup_lt_Some _ _ _ Hoi). pose proof (lookup_lt_Some _ _ _ Hoj).
      assert (Ei : eqv oi ki = true).
      { eapply (Forall2_lookup_lr _ _ _ _ _ _ HF' Hoi). by rewrite lookup_take. }
      assert (Ej : eqv oj kj = true).
      { eapply (Forall2_lookup_lr _ _ _ _ _ _ HF' Hoj). by rewrite lookup_take. }
      destruct (eqv oi oj) eqn:E1, (eqv ki kj) eqn:E2; try done.
      - assert (eqv ki kj = true); [|congruence]. eapply (eqv_trans _ Heq); [apply (eqv_sym _ Heq); exact Ei|].
        by eapply (eqv_trans _ Heq).
      - assert (eqv oi oj = true); [|congruence]. eapply (eqv_trans _ Heq); [exact Ei|].
        eapply (eqv_trans _ Heq); [exact E2|]. by apply (eqv_sym _ Heq).
    Qed.
  End Round.

  (** C36: whatever the input and the schedule, no out-of-range element, no
      other undefined behaviour *)
  Theorem C36_any_input s i ls :
    reachable P FS cfg t0 s → lsched_ok cfg t0 ls →
    ∃ S, lrun P FS cfg ci ck arg (linit FS s i) ls = Ok S.
  Proof.
    intros Hr Hok. destruct (never_bad P FS cfg ci ck arg eqv good Heq HP HF Harg t0 s i ls Hr Hok) as (S&HS&_). by exists S.
  Qed.

  (** The contract of one call of load(), begun in any state [S] of any run
      with any input and ended in [S3], having thrown ([b = false]) or
      returned.  [stands s z k]: object [z] holds a key equivalent to [k];
      [tab_ok]: the helper's table holds the keys [seen]. *)
  Lemma load_contract ls0 i s S t x tmp S1 ls S2 l S3 y b :
    reachable P FS cfg t0 s → lsched_ok cfg t0 (ls0 ++ LBegin t x tmp :: ls ++ [l]) →
    lrun P FS cfg ci ck arg (linit FS s i) ls0 = Ok S →
    lstep P FS cfg ci ck arg S (LBegin t x tmp) = Ok S1 →
    (S3 = S1 ∨ lrun P FS cfg ci ck arg S1 ls = Ok S2 ∧
       ld_rets S2 = ld_rets S ∧ ld_rets S1 = ld_rets S ∧ lstep P FS cfg ci ck arg S2 l = Ok S3) →
    ld_rets S3 = (y, b) :: ld_rets S →
    y = x ∧ ld_made S3 = ld_gone S3 ∧ vars (ld_core S3) !! tmp = None ∧
    ∃ seen, tab_ok P FS eqv (ld_core S) (ld_tab S) seen ∧
    if b then ∃ k seen' kx, read ci ck seen (ld_in S) = Some (k, seen', ld_in S3) ∧
         key_of P FS (ld_core S3) x = Some kx ∧ eqv kx k = true ∧ tab_ok P FS eqv (ld_core S3) (ld_tab S3) seen'
    else value_of (ld_core S3) x = value_of (ld_core S) x ∧ tab_ok P FS eqv (ld_core S3) (ld_tab S3) seen.
  Proof.
    intros Hr Hok H0 H1 H2 H3. pose proof (lsched_allowed cfg t0 _ Hok) as Hal.
    apply Forall_app in Hal as [Ha Hal]. apply Forall_cons in Hal as [Hb Hal]. apply Forall_app in Hal as [Hc Hd].
    apply Forall_cons in Hd as [Hd _].
    eapply (load_call P FS cfg ci ck arg eqv good Heq HP HF Harg t0 ls0 i s S t x tmp S1 ls S2 l S3 y b Hr Ha H0 Hb H1); [|done].
    destruct H2 as [->|(?&?&?&?)]; [by left|right]. split_and!; try done. by constructor.
  Qed.

  (** C36: a load returns only if its index is in range; the object then holds
      the key the input describes *)
  Theorem C36_returns_only_if_valid ls0 i s S t x tmp S1 ls S2 l S3 y :
    reachable P FS cfg t0 s → lsched_ok cfg t0 (ls0 ++ LBegin t x tmp :: ls ++ [l]) →
    lrun P FS cfg ci ck arg (linit FS s i) ls0 = Ok S →
    lstep P FS cfg ci ck arg S (LBegin t x tmp) = Ok S1 →
    lrun P FS cfg ci ck arg S1 ls = Ok S2 → ld_rets S2 = ld_rets S → ld_rets S1 = ld_rets S →
    lstep P FS cfg ci ck arg S2 l = Ok S3 → ld_rets S3 = (y, true) :: ld_rets S →
    y = x ∧ ∃ seen k seen' kx n rest, dec ci (ld_in S) = Some (n, rest) ∧ n ≤ length (ld_tab S) ∧
      length seen = length (ld_tab S) ∧ read ci ck seen (ld_in S) = Some (k, seen', ld_in S3) ∧
      key_of P FS (ld_core S3) x = Some kx ∧ eqv kx k = true.
  Proof.
    intros Hr Hok H0 H1 H2 H3 H4 H5 H6.
    destruct (load_contract ls0 i s S t x tmp S1 ls S2 l S3 y true Hr Hok H0 H1) as (->&_&_&seen&HT&k&seen'&kx&Hread&Hk&Ek&_);
      [right; by split_and!|done|].
    split; [done|]. pose proof (Forall2_length _ _ _ HT) as Hlen. pose proof Hread as Hread'. unfold read in Hread.
    destruct (dec ci (ld_in S)) as [[n i1]|]; [|done]. exists seen, k, seen', kx, n, i1. split_and!; try done.
    destruct (decide (n = length seen)); [lia|]. destruct (seen !! n) eqn:En; [|done]. apply lookup_lt_Some in En. lia.
  Qed.

  (** C36: an index that is too large makes load throw at once; nothing but
      the input position changes *)
  Theorem C36_rejected ls0 i s S t x tmp n rest S1 :
    lrun P FS cfg ci ck arg (linit FS s i) ls0 = Ok S →
    dec ci (ld_in S) = Some (n, rest) → length (ld_tab S) < n →
    lstep P FS cfg ci ck arg S (LBegin t x tmp) = Ok S1 →
    ld_rets S1 = (x, false) :: ld_rets S ∧ ld_core S1 = ld_core S ∧ ld_tab S1 = ld_tab S ∧ ld_pc S1 = PIdle.
  Proof.
    intros _ Hd Hn. simpl. destruct (ld_pc S), (stack (ld_core S) t), (live (ld_core S) x), (vars (ld_core S) !! tmp); try done.
    destruct (existsb _ _); [done|]. rewrite Hd, decide_True by done. by intros [= <-].
  Qed.

  (** C37: a load that throws, wherever, leaves the target and the helper's
      table as they were; each key object constructed has been destroyed once
      and the temporary flyweight is gone *)
  Theorem C37_failed_load ls0 i s S t x tmp S1 ls S2 l S3 y :
    reachable P FS cfg t0 s → lsched_ok cfg t0 (ls0 ++ LBegin t x tmp :: ls ++ [l]) →
    lrun P FS cfg ci ck arg (linit FS s i) ls0 = Ok S →
    lstep P FS cfg ci ck arg S (LBegin t x tmp) = Ok S1 →
    (S3 = S1 ∨ lrun P FS cfg ci ck arg S1 ls = Ok S2 ∧
       ld_rets S2 = ld_rets S ∧ ld_rets S1 = ld_rets S ∧ lstep P FS cfg ci ck arg S2 l = Ok S3) →
    ld_rets S3 = (y, false) :: ld_rets S →
    y = x ∧ value_of (ld_core S3) x = value_of (ld_core S) x ∧
    (∃ seen, tab_ok P FS eqv (ld_core S) (ld_tab S) seen ∧ tab_ok P FS eqv (ld_core S3) (ld_tab S3) seen) ∧
    ld_made S3 = ld_gone S3 ∧ vars (ld_core S3) !! tmp = None.
  Proof.
    intros Hr Hok H0 H1 H2 H3.
    destruct (load_contract ls0 i s S t x tmp S1 ls S2 l S3 y false Hr Hok H0 H1 H2 H3) as (->&Hm&Ht&seen&HT&Hv&HT').
    split_and!; [done|done|by exists seen|done|done].
  Qed.

  Theorem C37_key_objects s i ls :
    reachable P FS cfg t0 s → lsched_ok cfg t0 ls →
    ∃ S, lrun P FS cfg ci ck arg (linit FS s i) ls = Ok S ∧
      (ld_pc S = PIdle → ld_made S = ld_gone S) ∧ ld_gone S ≤ ld_made S ≤ ld_gone S + 1.
  Proof. exact (never_bad P FS cfg ci ck arg eqv good Heq HP HF Harg t0 s i ls). Qed.
End Properties.

(** ** Examples *)

(** the archive of [save_prog]: keys 7, 3, 4 once each; 17 is equivalent to
    7, and 3 is recognised after its flyweight was destroyed and recreated *)
Example save_out : sv_out save_end = [0; 7; 1; 3; 0; 1; 2; 4; 0] ∧ sv_pc save_end = None ∧
  saved nP nFS rc nc nc (sinit nFS (init nFS)) save_prog = [7; 3; 7; 3; 4; 7].
Proof. by vm_compute. Qed.
Example save_ok : srun nP nFS rc nc nc (sinit nFS (init nFS)) save_prog = Ok save_end.
Proof.
  unfold save_end.
  destruct (save_archive nP nFS rc nc nc neq _ neq_equivalence nP_ok nHF 0 (init nFS) save_prog) as (S&->&_); [| |done].
  - by exists [].
  - done.
Qed.

(** loading it in a program where 27 (equivalent to 7) is stored already:
    the equivalent 27 is shared *)
Example load_all : loaded nP nFS rc nc nc id (linit nFS load_start [0; 7; 1; 3; 0; 1; 2; 4; 0]) load_prog =
  map Some [27; 3; 27; 3; 4; 27] ++ [].
Proof. by vm_compute. Qed.
Lemma save_start_reachable : reachable nP nFS rc 0 (init nFS).
Proof. by exists []. Qed.
Lemma save_prog_sched : ssched_ok rc 0 save_prog.
Proof. done. Qed.
Lemma load_prog_sched : lsched_ok rc 0 load_prog.
Proof. done. Qed.
Example round_trip_used : Forall2 (λ o k, neq o k = true) [27; 3; 27; 3; 4; 27] [7; 3; 7; 3; 4; 7].
Proof.
  pose proof (C33_round_trip nP nFS rc nc nc id neq _ neq_equivalence nP_ok nHF nP_arg 0 nFS nHF rc 0
    (init nFS) save_prog save_end load_start load_prog [] [27; 3; 27; 3; 4; 27] []) as H.
  destruct save_out as (Eo&Ep&Es). rewrite Es, Eo in H.
  exact (H nc_ok nc_ok save_start_reachable save_prog_sched save_ok Ep load_start_reachable load_prog_sched load_all (le_n 6)).
Qed.

(** a corrupt index, a truncated archive, a key that cannot be constructed and
    a construction that throws: the object still holds 0 *)
Example corrupt : loaded nP nFS rc nc nc id (linit nFS load_start [1; 7]) (load_one 0 70 300) = [None] ∧
  key_at (after_load [1; 7] (load_one 0 70 300)) 0 = Some 0.
Proof. by vm_compute. Qed.
Example truncated : loaded nP nFS rc nc nc id (linit nFS load_start [0]) (load_one 0 70 300) = [None] ∧
  key_at (after_load [0] (load_one 0 70 300)) 0 = Some 0 ∧ ld_made (after_load [0] (load_one 0 70 300)) = 1 ∧
  ld_gone (after_load [0] (load_one 0 70 300)) = 1.
Proof. by vm_compute. Qed.
Example key_throws : loaded nP nFS rc nc nc id (linit nFS load_start [0; 13]) (load_one 0 70 300) = [None] ∧
  key_at (after_load [0; 13] (load_one 0 70 300)) 0 = Some 0 ∧ ld_gone (after_load [0; 13] (load_one 0 70 300)) = 1.
Proof. by vm_compute. Qed.
(** push_back throws *)
Definition push_throws : list (llabel (A:=nat) (W:=nat)) :=
  [LBegin 1 0 50; LNext false 70 []; LNext false 70 []] ++ replicate 40 (LCore (LRun 1 (Choice 300 false))) ++
  [LNext false 70 []; LNext true 70 []] ++ replicate 40 (LCore (LRun 1 (Choice 300 false))) ++ [LNext false 70 []].
Example push_throws_ok : loaded nP nFS rc nc nc id (linit nFS load_start [0; 5]) push_throws = [None] ∧
  key_at (after_load [0; 5] push_throws) 0 = Some 0 ∧
  vars (ld_core (after_load [0; 5] push_throws)) !! 50 = None ∧
  ld_made (after_load [0; 5] push_throws) = 1 ∧ ld_gone (after_load [0; 5] push_throws) = 1.
Proof. by vm_compute. Qed.

(** ** C38: keys containing flyweights of the same type *)
Section Nested.
  Context {D : Type} `{EqDecision D}.

  (** a loader that assigned the element just pushed would be correct for all
      values, hence the table and the archive are right and line 90 is the
      defect *)
  Theorem C38_with_last_element (ts : list (vtree D)) rest :
    ∃ f, ∀ fuel, f ≤ fuel →
      loads_last fuel (length ts) [] (fst (saves [] ts) ++ rest) = Some (ts, snd (saves [] ts), rest).
  Proof. destruct (loads_last_saves ts) as [f H]. exists f. intros fuel Hf. by apply H. Qed.

  (** the loader as it is is correct if every value is saved after those it
      contains *)
  Theorem C38_children_first (ts : list (vtree D)) rest fuel :
    2 ≤ fuel → ordered [] ts →
    loads fuel (length ts) [] (fst (saves [] ts) ++ rest) = Some (ts, snd (saves [] ts), rest).
  Proof. intros Hf Ho. eapply (loads_saves ts); [done| |exact Ho]. by intros k ?%elem_of_nil. Qed.
End Nested.

(** saving one flyweight containing another and loading it back yields the
    inner one *)
Definition nest : vtree nat := T 1 [T 2 []].
Theorem C38_nested_round_trip_refuted :
  ∃ (t r : vtree nat) o, fst (saves [] [t]) = o ∧ r ≠ t ∧
    ∀ fuel, 2 ≤ fuel → ∃ tab, loads fuel 1 [] o = Some ([r], tab, []).
Proof.
  exists nest, (T 2 []), [Idx 0; Dat 1 1; Idx 0; Dat 2 0]. split_and!; [done|done|].
  intros [|[|fuel]] Hf; [lia|lia|]. exists [T 2 []; nest]. done.
Qed.

Example nested_last : loads_last 5 1 [] (fst (saves [] [nest])) = Some ([nest], [T 2 []; nest], []).
Proof. by vm_compute. Qed.
Example nested_ordered : ordered [] [T 2 []; nest] ∧
  loads 5 2 [] (fst (saves [] [T 2 []; nest])) = Some ([T 2 []; nest], [T 2 []; nest], []).
Proof.
  split; [|by vm_compute]. simpl. split_and!; [by intros k ?%elem_of_nil| |done].
  intros k ?%elem_of_list_singleton. subst. by left.
Qed.

Print Assumptions C33_round_trip.
Print Assumptions C33_sharing.
Print Assumptions C34_keys_once.
Print Assumptions C34_index_range.
Print Assumptions C35_archive_determined.
Print Assumptions C36_any_input.
Print Assumptions C36_returns_only_if_valid.
Print Assumptions C36_rejected.
Print Assumptions C37_failed_load.
Print Assumptions C37_key_objects.
Print Assumptions C38_with_last_element.
Print Assumptions C38_children_first.
Print Assumptions C38_nested_round_trip_refuted.
