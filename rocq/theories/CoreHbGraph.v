(** Happens-before as the C++ standard defines it, for the executions of
    [CoreHb.v]: a graph over the log of what threads do, whose edges are the
    order of each thread and what synchronizes ([intro.races]).  [CoreHb.v]
    computes with sets of events instead; this file does not use those. *)
From Verif Require Export CoreHb.

Inductive act :=
| XEv (e : nat)                                   (* an event of plain accesses *)
| XRmw (e j : nat) (acq rls : bool)               (* an event that is an atomic operation on the counter of entry [j] *)
| XLock | XUnlock                                 (* the mutex is locked; becomes free *)
| XGot (x : var)                                  (* the flyweight object [x] has got its handle *)
| XBegin (x : var) | XDone (x : var)              (* a use of [x] begins; ends *)
| XEnd (x : var)                                  (* the handle of [x] is replaced or destroyed *)
| XHear (t : tid).                                (* the program has ordered what [t] did so far before *)
Notation glog := (list (tid * act)) (only parsing).

Definition act_ev (a : act) : option nat := match a with XEv e | XRmw e _ _ _ => Some e | _ => None end.
Definition at_ev (lg : glog) (k : nat) (e : nat) : Prop := ∃ t a, lg !! k = Some (t, a) ∧ act_ev a = Some e.
Definition does (lg : glog) (k : nat) (a : act) : Prop := ∃ t, lg !! k = Some (t, a).
(** the object [x] gets no other handle between *)
Definition still (lg : glog) (x : var) (i j : nat) : Prop := ∀ k, i < k < j → ¬ does lg k (XGot x).
Inductive edge (lg : glog) (i j : nat) : Prop :=
| E_thread t a b : i < j → lg !! i = Some (t, a) → lg !! j = Some (t, b) → edge lg i j
| E_mutex : i < j → does lg i XUnlock → does lg j XLock → edge lg i j
| E_counter e e' n q r : i < j → does lg i (XRmw e n q true) → does lg j (XRmw e' n true r) → edge lg i j
| E_use x : i < j → does lg i (XGot x) → does lg j (XBegin x) → still lg x i j → edge lg i j
| E_end x : i < j → does lg i (XGot x) ∨ does lg i (XDone x) → does lg j (XEnd x) → still lg x i j → edge lg i j
| E_hear t u a : i < j → lg !! i = Some (t, a) → lg !! j = Some (u, XHear t) → edge lg i j.

Section Graph.
  Context {K A R V : Type}.
  Context (P : policy K A R V) (FS : factory K) (cfg : config).
  Context (inc_sync dec_rel dec_acq : bool).
  Notation state := (state (R:=R) (K:=K) (A:=A) FS).
  Notation instr := (instr (K:=K) (A:=A) (R:=R)).

  (** What a step does; of [c] only the numbers of events are used, [n] is that
      of the next one. *)
  Definition g_exec (s : state) (t : tid) (i : instr) (ch : choice) (c : hb) : list act :=
    let n := nxt c in
    match i with
    | ILockFind _ _ _ | ILockCheck _ => if lck cfg then [XLock] else []
    | IFind _ _ r => XEv n :: if c_throw ch then []
                              else match f_find FS (cont s) (kview P s) (p_key P r) with NotFound => [XEv (S n)] | _ => [] end
    | IVisit _ h _ _ _ => match entry s h with Some _ => [XEv n] | None => [] end
    | IAddRef _ h _ _ => if trk cfg then [XRmw n (idn c h) inc_sync inc_sync] else []
    | IAddDel _ _ _ _ => [XEv n]
    | IUnlock => match lock s with Some (_, 1) => [XUnlock] | _ => [] end
    | IRelease h => if trk cfg then [XRmw n (idn c h) dec_acq dec_rel] else []
    | ICheck h => XEv n :: match entry s h with
                           | Some m => if decide (n_del m - 1 = 0)%Z then [XEv (S n)] else []
                           | None => []
                           end
    | IFree _ | IAbort _ => []
    | IBind x _ _ => [XGot x]
    end.
  Definition g_copy (s : state) (y : var) (n : nat) (c : hb) : list act :=
    match live s y with
    | Some h => [XBegin y] ++ (if trk cfg then [XRmw n (idn c h) inc_sync inc_sync] else []) ++ [XDone y]
    | None => []
    end.
  Definition g_count (l : list act) : nat := length (omap act_ev l).
  Fixpoint g_copies (s : state) (ys : list var) (n : nat) (c : hb) : list act :=
    match ys with
    | [] => []
    | y :: ys => g_copy s y n c ++ g_copies s ys (n + g_count (g_copy s y n c)) c
    end.
  Fixpoint g_inner (s : state) (x : var) (h : addr) (path : list nat) (n : nat) (c : hb) : list act :=
    match path with
    | [] => (if trk cfg then [XRmw n (idn c h) inc_sync inc_sync] else []) ++ [XDone x]
    | j :: path =>
        [XEv n; XDone x] ++
        match entry s h with
        | Some m => match p_kids P (n_rep m) !! j with Some h' => g_inner s x h' path (S n) c | None => [] end
        | None => []
        end
    end.
  Definition g_start (s : state) (t : tid) (o : op (A:=A)) (c : hb) : list act :=
    let n := nxt c in
    match o with
    | ONew _ _ ys => g_copies s ys n c
    | OCopy x y => g_copy s y n c ++ [XGot x]
    | OAssign x y => [XEnd x] ++ g_copy s y n c ++ [XGot x]
    | OSwap x y => [XEnd x; XEnd y; XGot x; XGot y]
    | ODestroy x => [XEnd x]
    | OGet x => match live s x with Some _ => [XBegin x; XEv n; XDone x] | None => [] end
    | OInner x y path => match live s y with Some h => [XBegin y] ++ g_inner s y h path n c ++ [XGot x] | None => [] end
    end.
  Fixpoint g_walk (s : state) (x : var) (h : addr) (path : list nat) (n : nat) : list act :=
    [XEv n; XDone x] ++
    match path with
    | [] => []
    | j :: path => match entry s h with
                   | Some m => match p_kids P (n_rep m) !! j with Some h' => g_walk s x h' path (S n) | None => [] end
                   | None => []
                   end
    end.
  Definition g_step (sc : state * hb) (l : hlabel (A:=A)) : glog :=
    let '(s, c) := sc in
    match l with
    | HCore l => match step P FS cfg s l with
                 | Next _ => pair (label_tid l) <$> match l with
                                                    | LStart t o => g_start s t o c
                                                    | LRun t ch => match stack s t with i :: _ => g_exec s t i ch c | [] => [] end
                                                    end
                 | _ => []
                 end
    | HSync t u => [(u, XHear t)]
    | HWalk t x path => match stack s t, live s x with [], Some h => pair t <$> XBegin x :: g_walk s x h path (nxt c) | _, _ => [] end
    end.
  (** the log of a run *)
  Fixpoint g_run (sc : state * hb) (ls : list hlabel) : glog :=
    match ls with
    | [] => []
    | l :: ls => g_step sc l ++ match hstep P FS cfg inc_sync dec_rel dec_acq sc l with Some sc => g_run sc ls | None => [] end
    end.
End Graph.

(** ** Sets of events and the graph *)
Definition reach (lg : glog) (e k : nat) : Prop := ∃ j, at_ev lg j e ∧ rtc (edge lg) j k.

Record G (lg : glog) (c : hb) : Prop := {
  g_kn : ∀ t e, e ∈ knows c t → ∃ k a, lg !! k = Some (t, a) ∧ reach lg e k;
  g_mset : ∀ e, e ∈ mset c → ∃ k, does lg k XUnlock ∧ reach lg e k;
  g_nd : ∀ h i E e, nd c !! h = Some (i, E) → e ∈ E → ∃ k e' q, does lg k (XRmw e' i q true) ∧ reach lg e k;
  g_ob : ∀ x w r e, ob c !! x = Some (w, r) → 
    (e ∈ w → ∃ k, does lg k (XGot x) ∧ still lg x k (length lg) ∧ reach lg e k) ∧
    (e ∈ r → ∃ k, does lg k (XDone x) ∧ still lg x k (length lg) ∧ reach lg e k);
  g_past : ∀ e' D e, past c !! e' = Some D → e ∈ D → ∃ i j, at_ev lg i e ∧ at_ev lg j e' ∧ tc (edge lg) i j;
  g_ev : ∀ k e, at_ev lg k e → e < nxt c;
  g_one : ∀ k k' e, at_ev lg k e → at_ev lg k' e → k = k';
  g_tr : ∀ a, a ∈ tr c → ∃ k x, lg !! k = Some (a_tid a, x) ∧ act_ev x = Some (a_ev a);
}.

Section Ext.
  Context (lg l : glog).
  Lemma look_ext k x : lg !! k = Some x → (lg ++ l) !! k = Some x.
  Proof. intros H. rewrite lookup_app_l; [done|]. by eapply lookup_lt_Some. Qed.
  Lemma does_ext k a : does lg k a → does (lg ++ l) k a.
  Proof. intros [t H]. exists t. by apply look_ext. Qed.
  Lemma at_ext k e : at_ev lg k e → at_ev (lg ++ l) k e.
  Proof. intros (t&a&H&?). exists t, a. split; [by apply look_ext|done]. Qed.
  Lemma does_lt k a : does lg k a → k < length lg.
  Proof. intros [t H]. by eapply lookup_lt_Some. Qed.
  Lemma still_ext x i j : j ≤ length lg → still lg x i j → still (lg ++ l) x i j.
  Proof. intros Hj H k Hk [t Ht]. rewrite lookup_app_l in Ht by lia. apply (H k Hk). by exists t. Qed.
  Lemma edge_ext i j : edge lg i j → edge (lg ++ l) i j.
  Proof.
    intros [t a b Hlt Ha Hb|Hlt Ha Hb|e e' n q r Hlt Ha Hb|x Hlt Ha Hb Hs|x Hlt Ha Hb Hs|t u a Hlt Ha Hb].
    - eapply E_thread; eauto using look_ext.
    - apply E_mutex; eauto using does_ext.
    - eapply E_counter; eauto using does_ext.
    - apply (E_use _ _ _ x); eauto using does_ext. apply still_ext; [|done]. apply does_lt in Hb. lia.
    - apply (E_end _ _ _ x); [done|destruct Ha; eauto using does_ext|eauto using does_ext|]. apply still_ext; [|done]. apply does_lt in Hb. lia.
    - eapply E_hear; eauto using look_ext.
  Qed.
  Lemma rtc_ext i j : rtc (edge lg) i j → rtc (edge (lg ++ l)) i j.
  Proof. induction 1; [done|]. eapply rtc_l; [|done]. by apply edge_ext. Qed.
  Lemma tc_ext i j : tc (edge lg) i j → tc (edge (lg ++ l)) i j.
  Proof. induction 1; [by apply tc_once, edge_ext|]. eapply tc_l; [|done]. by apply edge_ext. Qed.
  Lemma reach_ext e k : reach lg e k → reach (lg ++ l) e k.
  Proof. intros (j&?&?). exists j. split; [by apply at_ext|by apply rtc_ext]. Qed.
End Ext.

Lemma edge_lt lg i j : edge lg i j → i < j.
Proof. by destruct 1. Qed.
Lemma tc_lt lg i j : tc (edge lg) i j → i < j.
Proof. induction 1 as [i j Hij|i j k Hij _ IH]; apply edge_lt in Hij; lia. Qed.
Lemma reach_step lg e i j : reach lg e i → edge lg i j → reach lg e j.
Proof. intros (k&Hk&Hr) He. exists k. split; [done|]. by eapply rtc_r. Qed.

(** one more action *)
Lemma G_ext lg c t a c' : G lg c → let lg' := lg ++ [(t, a)] in let k := length lg in
  (∀ u e, e ∈ knows c' u → e ∈ knows c u ∨ u = t ∧ reach lg' e k) →
  (∀ e, e ∈ mset c' → e ∈ mset c ∨ a = XUnlock ∧ reach lg' e k) →
  (∀ h i E e, nd c' !! h = Some (i, E) → e ∈ E → (∃ E0, nd c !! h = Some (i, E0) ∧ e ∈ E0) ∨ (∃ e' q, a = XRmw e' i q true ∧ reach lg' e k)) →
  (∀ x w r e, ob c' !! x = Some (w, r) →
    (e ∈ w → (a ≠ XGot x ∧ ∃ w0 r0, ob c !! x = Some (w0, r0) ∧ e ∈ w0) ∨ a = XGot x ∧ reach lg' e k) ∧
    (e ∈ r → (a ≠ XGot x ∧ ∃ w0 r0, ob c !! x = Some (w0, r0) ∧ e ∈ r0) ∨ a = XDone x ∧ reach lg' e k)) →
  (∀ e' D, past c' !! e' = Some D → past c !! e' = Some D ∨ act_ev a = Some e' ∧ ∀ e, e ∈ D → e ∈ knows c t) →
  (act_ev a = None ∧ nxt c' = nxt c ∨ act_ev a = Some (nxt c) ∧ nxt c' = S (nxt c)) →
  (∀ b, b ∈ tr c' → b ∈ tr c ∨ a_tid b = t ∧ act_ev a = Some (a_ev b)) →
  G lg' c'.
Proof.
  intros [Gk Gm Gn Go Gp Ge G1 Gt] lg' k Hk Hm Hn Ho Hp Hx Ht.
  assert (Hlast : lg' !! k = Some (t, a)) by (unfold lg', k; by rewrite lookup_app_r, Nat.sub_diag by lia).
  assert (Hlen : length lg' = S k) by (unfold lg', k; rewrite app_length; simpl; lia).
  assert (Hinv : ∀ i x, lg' !! i = Some x → i = k ∧ x = (t, a) ∨ lg !! i = Some x).
  { intros i x Hi. destruct (decide (i < k)); [right; unfold lg' in Hi; by rewrite lookup_app_l in Hi by done|left].
    pose proof (lookup_lt_Some _ _ _ Hi). assert (i = k) as -> by lia. rewrite Hlast in Hi. by injection Hi. }
  assert (Hat : ∀ i e, at_ev lg' i e → i = k ∧ act_ev a = Some e ∨ at_ev lg i e).
  { intros i e (u&b&Hi&He). destruct (Hinv _ _ Hi) as [[-> [= -> ->]]|Hi']; [by left|]. right. by exists u, b. }
  assert (Hst : ∀ x i, a ≠ XGot x → still lg x i (length lg) → still lg' x i (length lg')).
  { intros x i Ha Hs j Hj [u Hu]. destruct (Hinv _ _ Hu) as [[_ Hua]|Hi']; [by simplify_eq|]. apply (Hs j); [|by exists u].
    apply lookup_lt_Some in Hi'. lia. }
  assert (Hst' : ∀ x, still lg' x k (length lg')) by (intros x j Hj; lia).
  split.
  - intros u e He. destruct (Hk u e He) as [He'|[-> Hr]]; [|by exists k, a]. destruct (Gk u e He') as (i&b&?&?). exists i, b. eauto using look_ext, reach_ext.
  - intros e He. destruct (Hm e He) as [He'|[-> Hr]]; [|exists k; split; [by exists t|done]]. destruct (Gm e He') as (i&?&?). exists i. eauto using does_ext, reach_ext.
  - intros h i E e Hh He. destruct (Hn h i E e Hh He) as [(E0&Hh0&He0)|(e'&q&->&Hr)].
    + destruct (Gn h i E0 e Hh0 He0) as (j&e'&q&?&?). exists j, e', q. eauto using does_ext, reach_ext.
    + exists k, e', q. split; [by exists t|done].
  - intros x w r e Hox. destruct (Ho x w r e Hox) as [Hw Hr]. split; intros He.
    + destruct (Hw He) as [(Ha&w0&r0&H0&He0)|[-> Hre]].
      * destruct (Go x w0 r0 e H0) as [Gw _]. destruct (Gw He0) as (j&?&?&?). exists j. split_and!; [by apply does_ext|by apply Hst|by apply reach_ext].
      * exists k. split_and!; [by exists t|auto|done].
    + destruct (Hr He) as [(Ha&w0&r0&H0&He0)|[-> Hre]].
      * destruct (Go x w0 r0 e H0) as [_ Gr]. destruct (Gr He0) as (j&?&?&?). exists j. split_and!; [by apply does_ext|by apply Hst|by apply reach_ext].
      * exists k. split_and!; [by exists t|auto|done].
  - intros e' D e HD He. destruct (Hp e' D HD) as [HD'|[Ha Hsub]].
    + destruct (Gp e' D e HD' He) as (i&j&?&?&?). exists i, j. split_and!; [by apply at_ext|by apply at_ext|by apply tc_ext].
    + destruct (Gk t e (Hsub e He)) as (j&b&Hj&i&Hi&Hij). exists i, k. split_and!; [by apply at_ext|by exists t, a|].
      eapply tc_rtc_l; [by apply rtc_ext|]. apply tc_once. eapply E_thread; [|by apply look_ext|done]. by apply lookup_lt_Some in Hj.
  - intros i e Hi. destruct (Hat i e Hi) as [[_ Ha]|Hi']; [|specialize (Ge i e Hi'); destruct Hx as [[_ ->]|[_ ->]]; lia].
    destruct Hx as [[Hx _]|[Hx ->]]; rewrite Hx in Ha; simplify_eq; lia.
  - intros i j e Hi Hj. destruct (Hat i e Hi) as [[-> Ha]|Hi'], (Hat j e Hj) as [[-> Hb]|Hj']; [done| | |by eapply G1].
    + apply Ge in Hj'. destruct Hx as [[Hx _]|[Hx _]]; rewrite Hx in Ha; simplify_eq; lia.
    + apply Ge in Hi'. destruct Hx as [[Hx _]|[Hx _]]; rewrite Hx in Hb; simplify_eq; lia.
  - intros b Hb. destruct (Ht b Hb) as [Hb'|[<- Ha]]; [|by exists k, a]. destruct (Gt b Hb') as (i&x&?&?). exists i, x. eauto using look_ext.
Qed.
