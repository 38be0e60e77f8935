(** Happens-before as the C++ standard defines it, for the executions of
    [ConHb.v]: a graph over the log of what threads do (cf. [CoreHbGraph.v]);
    this part does not use the sets of events of [ConHb.v]. *)
From Verif Require Export ConHb.

Inductive act :=
| XEv (e : nat)                                   (* an event of plain accesses *)
| XRmw (e j : nat) (z : Z) (acq rls : bool)       (* an event that adds [z] to the counter of entry [j] *)
| XLoad (e j w : nat) (acq : bool)                (* an event that loads it and gets what event [w] wrote *)
| XEnter (j : nat) | XLeave (j : nat)             (* exclusive access to the element of entry [j] begins; ends *)
| XGot (x : var)                                  (* the flyweight object [x] has got its handle *)
| XBegin (x : var) | XDone (x : var)              (* a use of [x] begins; ends *)
| XEnd (x : var)                                  (* the handle of [x] is replaced or destroyed *)
| XHear (t : tid).                                (* the program has ordered what [t] did so far before *)
Notation glog := (list (tid * act)) (only parsing).

Definition act_ev (a : act) : option nat := match a with XEv e | XRmw e _ _ _ _ | XLoad e _ _ _ => Some e | _ => None end.
Definition at_ev (lg : glog) (k : nat) (e : nat) : Prop := ∃ t a, lg !! k = Some (t, a) ∧ act_ev a = Some e.
Definition does (lg : glog) (k : nat) (a : act) : Prop := ∃ t, lg !! k = Some (t, a).
(** the object [x] gets no other handle between *)
Definition still (lg : glog) (x : var) (i j : nat) : Prop := ∀ k, i < k < j → ¬ does lg k (XGot x).
(** An operation that releases heads a release sequence, which all later
    read-modify-writes of the counter belong to: [E_counter], [E_load] (the
    load gets what [w] wrote, which is in the sequence headed by [e]). *)
Inductive edge (lg : glog) (i j : nat) : Prop :=
| E_thread t a b : i < j → lg !! i = Some (t, a) → lg !! j = Some (t, b) → edge lg i j
| E_elem n : i < j → does lg i (XLeave n) → does lg j (XEnter n) → edge lg i j
| E_counter e e' n z z' q r : i < j → does lg i (XRmw e n z q true) → does lg j (XRmw e' n z' true r) → edge lg i j
| E_load e e' n z q w : i < j → does lg i (XRmw e n z q true) → does lg j (XLoad e' n w true) → e ≤ w → edge lg i j
| E_use x : i < j → does lg i (XGot x) → does lg j (XBegin x) → still lg x i j → edge lg i j
| E_end x : i < j → does lg i (XGot x) ∨ does lg i (XDone x) → does lg j (XEnd x) → still lg x i j → edge lg i j
| E_hear t u a : i < j → lg !! i = Some (t, a) → lg !! j = Some (u, XHear t) → edge lg i j.

(** the writes to the counter of entry [j], newest first, with the values:
    event [j] itself creates the entry *)
Definition write1 (j : nat) (l : list (nat * Z)) (x : tid * act) : list (nat * Z) :=
  match x.2 with
  | XEv e => if decide (e = j) then [(j, 0%Z)] else l
  | XRmw e j' z _ _ => if decide (j' = j) then (e, (match l with (_, v) :: _ => v | [] => 0 end + z)%Z) :: l else l
  | _ => l
  end.
Definition writes (lg : glog) (j : nat) : list (nat * Z) := foldl (write1 j) [] lg.

Section Graph.
  Context {K A R V : Type}.
  Context (P : Core.policy K A R V) (eqv : K → K → bool).
  Context (inc_sync dec_rel dec_acq load_acq : bool).
  Notation state := (state (K:=K) (A:=A) (R:=R)).
  Notation instr := (instr (K:=K) (A:=A) (R:=R)).

  (** What a step does; of [c] only the numbers of events are used, [n] is that
      of the next one. *)
  Definition g_inc (n : nat) (h : addr) (c : hb) : act := XRmw n (idn c h) 1 inc_sync inc_sync.
  Definition g_dec (n : nat) (h : addr) (c : hb) : act := XRmw n (idn c h) (-1) dec_acq dec_rel.
  Definition g_copy (y : var) (h : addr) (c : hb) : list act := [XBegin y; g_inc (nxt c) h c; XDone y].
  Definition g_exec (s : state) (t : tid) (i : instr) (thr : bool) (c : hb) : list act :=
    let n := nxt c in
    match i with
    | IMake _ _ (y :: _) _ => match live s y with Some h => g_copy y h c | None => [] end
    | IMake _ _ [] _ => []
    | IEnter _ _ r =>
        if thr then []
        else match find P eqv s (p_key P r) with
             | Some h => [XEnter (idn c h); XEv n]
             | None => [XEv n; XEnter n]
             end
    | IVisit _ h _ _ _ =>
        match ents s !! h with
        | Some m => match p_val P (n_rep m) with
                    | Some _ => [XEv n]
                    | None => if thr then [XEv n; XLeave (idn c h)] else [XEv n]
                    end
        | None => []
        end
    | IAddRef _ h _ _ => [g_inc n h c]
    | ILeave _ h _ _ | ISkip h => [XLeave (idn c h)]
    | IRelease h | IDup h 0 => [g_dec n h c]
    | IBind x _ _ => [XGot x]
    | IAbort _ | ITest _ => []
    | IRead x h => [XBegin x; XEv n; XDone x]
    | ISwap1 _ _ _ h | ISwap2 _ _ h _ | IDup h (S _) => [g_inc n h c]
    | ISwap3 x y _ _ => [XGot x; XGot y]
    | IErase h => [XEv n]
    end.
  Definition g_start (s : state) (o : op (A:=A)) (c : hb) : list act :=
    match o with
    | ONew _ _ _ => []
    | OCopy x y => match live s y with Some h => g_copy y h c ++ [XGot x] | None => [] end
    | OAssign x y => match live s y with Some h => [XEnd x] ++ g_copy y h c ++ [XGot x] | None => [] end
    | OSwap x y => match live s x with Some h => [XEnd x; XEnd y] ++ g_copy x h c | None => [] end
    | ODestroy x => [XEnd x]
    | OGet x => match live s x with Some h => g_copy x h c | None => [] end
    end.
  Fixpoint g_walk (s : state) (x : var) (h : addr) (path : list nat) (n : nat) (c : hb) : list act :=
    [g_inc n h c; XDone x; g_dec (S n) h c; XDone x; XEv (S (S n)); XDone x] ++
    match path with
    | [] => []
    | j :: path => match ents s !! h with
                   | Some m => match p_kids P (n_rep m) !! j with Some h' => g_walk s x h' path (S (S (S n))) c | None => [] end
                   | None => []
                   end
    end.
  Definition g_lab (s : state) (l : label (A:=A)) (c : hb) : glog :=
    match l with
    | LStart t o => pair t <$> g_start s o c
    | LRun t thr => match stack s t with i :: _ => pair t <$> g_exec s t i thr c | [] => [] end
    | LLook h => [(gc_tid, XEnter (idn c h))]
    | LBegin | LEnd => []
    end.
  Definition g_step (sd : state * chb) (l : clabel (A:=A)) : glog :=
    let '(s, d) := sd in let c := co d in
    match l with
    | CCon l => if tests s l then [] else match step P eqv s l with Next _ => g_lab s l c | _ => [] end
    | CLoad i =>
        match stack s gc_tid with
        | ITest h :: _ => match load load_acq gc_tid h i d, hist d h !! i with
                          | Some _, Some (w, _, _) => [(gc_tid, XLoad (nxt c) (idn c h) w load_acq)]
                          | _, _ => []
                          end
        | _ => []
        end
    | CProbe t h =>
        match stack s t, ents s !! h with
        | IEnter _ _ _ :: _, Some (Node _ _ None) => pair t <$> [XEnter (idn c h); XEv (nxt c); XLeave (idn c h)]
        | _, _ => []
        end
    | CSync t u => [(u, XHear t)]
    | CWalk t x path => match stack s t, live s x with [], Some h => pair t <$> XBegin x :: g_walk s x h path (nxt c) c | _, _ => [] end
    end.
  (** the log of a run *)
  Fixpoint g_run (sd : state * chb) (ls : list clabel) : glog :=
    match ls with
    | [] => []
    | l :: ls => g_step sd l ++ match cstep P eqv inc_sync dec_rel dec_acq load_acq sd l with Some sd => g_run sd ls | None => [] end
    end.
End Graph.

(** ** Sets of events and the graph *)
Definition gets (lg : glog) (e k : nat) : Prop := ∃ j, at_ev lg j e ∧ rtc (edge lg) j k.

Record GR (lg : glog) (d : chb) : Prop := {
  g_kn : ∀ t e, e ∈ knows (co d) t → ∃ k a, lg !! k = Some (t, a) ∧ gets lg e k;
  g_lk : ∀ h e, e ∈ lset d h → ∃ k, does lg k (XLeave (idn (co d) h)) ∧ gets lg e k;
  g_nd : ∀ h i E e, nd (co d) !! h = Some (i, E) → e ∈ E → ∃ k e' z q, does lg k (XRmw e' i z q true) ∧ gets lg e k;
  g_hi : ∀ h w e, w ∈ hist d h → e ∈ w.2 → ∃ k e' z q, does lg k (XRmw e' (idn (co d) h) z q true) ∧ e' ≤ w.1.1 ∧ gets lg e k;
  g_ob : ∀ x w r e, ob (co d) !! x = Some (w, r) →
    (e ∈ w → ∃ k, does lg k (XGot x) ∧ still lg x k (length lg) ∧ gets lg e k) ∧
    (e ∈ r → ∃ k, does lg k (XDone x) ∧ still lg x k (length lg) ∧ gets lg e k);
  g_past : ∀ e' D e, past (co d) !! e' = Some D → e ∈ D → ∃ i j, at_ev lg i e ∧ at_ev lg j e' ∧ tc (edge lg) i j;
  g_ev : ∀ k e, at_ev lg k e → e < nxt (co d);
  g_one : ∀ k k' e, at_ev lg k e → at_ev lg k' e → k = k';
  g_tr : ∀ a, a ∈ tr (co d) → ∃ k x, lg !! k = Some (a_tid a, x) ∧ act_ev x = Some (a_ev a);
  g_wr : ∀ h i E, nd (co d) !! h = Some (i, E) → fst <$> hist d h = writes lg i;
  g_id : ∀ h i E, nd (co d) !! h = Some (i, E) → i < nxt (co d);
  g_inj : ∀ h h' i E E', nd (co d) !! h = Some (i, E) → nd (co d) !! h' = Some (i, E') → h = h';
  g_cn : ∀ k e j z q r, does lg k (XRmw e j z q r) → j < nxt (co d);
}.

Section Ext.
  Context (lg l : glog).
  Lemma look_ext k x : lg !! k = Some x → (lg ++ l) !! k = Some x.
  Proof. intros H. rewrite lookup_app_l; [done|]. by eapply lookup_lt_Some. Qed.
  Lemma does_ext k a : does lg k a → does (lg ++ l) k a.
  Proof. intros [t H]. exists t. by apply look_ext. Qed.
  Lemma at_ext k e : at_ev lg k e → at_ev (lg ++ l) k e.
  Proof. intros (t&a&H&?). exists t, a. split; [by apply look_ext|done]. Qed.
  Lemma does_lt k a : does lg k a → k < length lg.
  Proof. intros [t H]. by eapply lookup_lt_Some. Qed.
  Lemma still_ext x i j : j ≤ length lg → still lg x i j → still (lg ++ l) x i j.
  Proof. intros Hj H k Hk [t Ht]. rewrite lookup_app_l in Ht by lia. apply (H k Hk). by exists t. Qed.
  Lemma edge_ext i j : edge lg i j → edge (lg ++ l) i j.
  Proof.
    intros [t a b Hlt Ha Hb|n Hlt Ha Hb|e e' n z z' q r Hlt Ha Hb|e e' n z q w Hlt Ha Hb Hw|x Hlt Ha Hb Hs|x Hlt Ha Hb Hs|t u a Hlt Ha Hb].
    - eapply E_thread; eauto using look_ext.
    - eapply E_elem; eauto using does_ext.
    - eapply E_counter; eauto using does_ext.
    - eapply E_load; eauto using does_ext.
    - apply (E_use _ _ _ x); eauto using does_ext. apply still_ext; [|done]. apply does_lt in Hb. lia.
    - apply (E_end _ _ _ x); [done|destruct Ha; eauto using does_ext|eauto using does_ext|]. apply still_ext; [|done]. apply does_lt in Hb. lia.
    - eapply E_hear; eauto using look_ext.
  Qed.
  Lemma rtc_ext i j : rtc (edge lg) i j → rtc (edge (lg ++ l)) i j.
  Proof. induction 1; [done|]. eapply rtc_l; [|done]. by apply edge_ext. Qed.
  Lemma tc_ext i j : tc (edge lg) i j → tc (edge (lg ++ l)) i j.
  Proof. induction 1; [by apply tc_once, edge_ext|]. eapply tc_l; [|done]. by apply edge_ext. Qed.
  Lemma gets_ext e k : gets lg e k → gets (lg ++ l) e k.
  Proof. intros (j&?&?). exists j. split; [by apply at_ext|by apply rtc_ext]. Qed.
End Ext.

Lemma edge_lt lg i j : edge lg i j → i < j.
Proof. by destruct 1. Qed.
Lemma tc_lt lg i j : tc (edge lg) i j → i < j.
Proof. induction 1 as [i j Hij|i j k Hij _ IH]; apply edge_lt in Hij; lia. Qed.
Lemma gets_step lg e i j : gets lg e i → edge lg i j → gets lg e j.
Proof. intros (k&Hk&Hr) He. exists k. split; [done|]. by eapply rtc_r. Qed.
Lemma writes_snoc lg x j : writes (lg ++ [x]) j = write1 j (writes lg j) x.
Proof. unfold writes. by rewrite foldl_app. Qed.

(** one more action *)
Lemma G_ext lg d t a d' : GR lg d → let lg' := lg ++ [(t, a)] in let k := length lg in let c := co d in let c' := co d' in
  (∀ u e, e ∈ knows c' u → e ∈ knows c u ∨ u = t ∧ gets lg' e k) →
  (∀ h e, e ∈ lset d' h → e ∈ lset d h ∧ idn c' h = idn c h ∨ a = XLeave (idn c' h) ∧ gets lg' e k) →
  (∀ h i E e, nd c' !! h = Some (i, E) → e ∈ E → (∃ E0, nd c !! h = Some (i, E0) ∧ e ∈ E0) ∨ (∃ e' z q, a = XRmw e' i z q true ∧ gets lg' e k)) →
  (∀ h w e, w ∈ hist d' h → e ∈ w.2 → w ∈ hist d h ∧ idn c' h = idn c h ∨
    (∃ k e' z q, does lg' k (XRmw e' (idn c' h) z q true) ∧ e' ≤ w.1.1 ∧ gets lg' e k)) →
  (∀ x w r e, ob c' !! x = Some (w, r) →
    (e ∈ w → (a ≠ XGot x ∧ ∃ w0 r0, ob c !! x = Some (w0, r0) ∧ e ∈ w0) ∨ a = XGot x ∧ gets lg' e k) ∧
    (e ∈ r → (a ≠ XGot x ∧ ∃ w0 r0, ob c !! x = Some (w0, r0) ∧ e ∈ r0) ∨ a = XDone x ∧ gets lg' e k)) →
  (∀ e' D, past c' !! e' = Some D → past c !! e' = Some D ∨ act_ev a = Some e' ∧ ∀ e, e ∈ D → e ∈ knows c t) →
  (act_ev a = None ∧ nxt c' = nxt c ∨ act_ev a = Some (nxt c) ∧ nxt c' = S (nxt c)) →
  (∀ b, b ∈ tr c' → b ∈ tr c ∨ a_tid b = t ∧ act_ev a = Some (a_ev b)) →
  (∀ h i E, nd c' !! h = Some (i, E) → fst <$> hist d' h = writes lg' i) →
  (∀ h i E, nd c' !! h = Some (i, E) → i < nxt c') →
  (∀ h h' i E E', nd c' !! h = Some (i, E) → nd c' !! h' = Some (i, E') → h = h') →
  (∀ e j z q r, a = XRmw e j z q r → j < nxt c') →
  GR lg' d'.
Proof.
  intros [Gk Gl Gn Gh Go Gp Ge G1 Gt Gw Gi Gj Gc] lg' k c c' Hk Hl Hn Hh Ho Hp Hx Ht Hw Hi Hnj Hc.
  assert (Hlast : lg' !! k = Some (t, a)) by (unfold lg', k; by rewrite lookup_app_r, Nat.sub_diag by lia).
  assert (Hlen : length lg' = S k) by (unfold lg', k; rewrite app_length; simpl; lia).
  assert (Hinv : ∀ i x, lg' !! i = Some x → i = k ∧ x = (t, a) ∨ lg !! i = Some x).
  { intros i x Hix. destruct (decide (i < k)); [right; unfold lg' in Hix; by rewrite lookup_app_l in Hix by done|left].
    pose proof (lookup_lt_Some _ _ _ Hix). assert (i = k) as -> by lia. rewrite Hlast in Hix. by injection Hix. }
  assert (Hat : ∀ i e, at_ev lg' i e → i = k ∧ act_ev a = Some e ∨ at_ev lg i e).
  { intros i e (u&b&Hix&He). destruct (Hinv _ _ Hix) as [[-> [= -> ->]]|Hi']; [by left|]. right. by exists u, b. }
  assert (Hst : ∀ x i, a ≠ XGot x → still lg x i (length lg) → still lg' x i (length lg')).
  { intros x i Ha Hs j Hj [u Hu]. destruct (Hinv _ _ Hu) as [[_ Hua]|Hi']; [by simplify_eq|]. apply (Hs j); [|by exists u].
    apply lookup_lt_Some in Hi'. lia. }
  assert (Hst' : ∀ x, still lg' x k (length lg')) by (intros x j Hj; lia).
  assert (Hnx : nxt c ≤ nxt c') by (destruct Hx as [[_ ->]|[_ ->]]; lia).
  split; fold c'.
  - intros u e He. destruct (Hk u e He) as [He'|[-> Hr]]; [|by exists k, a]. destruct (Gk u e He') as (i&b&?&?). exists i, b. eauto using look_ext, gets_ext.
  - intros h e He. destruct (Hl h e He) as [[He' ->]|[-> Hr]]; [|exists k; split; [by exists t|done]]. destruct (Gl h e He') as (i&?&?). exists i. eauto using does_ext, gets_ext.
  - intros h i E e Hh' He. destruct (Hn h i E e Hh' He) as [(E0&Hh0&He0)|(e'&z&q&->&Hr)].
    + destruct (Gn h i E0 e Hh0 He0) as (j&e'&z&q&?&?). exists j, e', z, q. eauto using does_ext, gets_ext.
    + exists k, e', z, q. split; [by exists t|done].
  - intros h w e Hw' He. destruct (Hh h w e Hw' He) as [[Hw0 ->]|?]; [|done]. destruct (Gh h w e Hw0 He) as (j&e'&z&q&?&?&?). exists j, e', z, q. eauto using does_ext, gets_ext.
  - intros x w r e Hox. destruct (Ho x w r e Hox) as [Hw' Hr]. split; intros He.
    + destruct (Hw' He) as [(Ha&w0&r0&H0&He0)|[-> Hre]].
      * destruct (Go x w0 r0 e H0) as [Gw' _]. destruct (Gw' He0) as (j&?&?&?). exists j. split_and!; [by apply does_ext|by apply Hst|by apply gets_ext].
      * exists k. split_and!; [by exists t|auto|done].
    + destruct (Hr He) as [(Ha&w0&r0&H0&He0)|[-> Hre]].
      * destruct (Go x w0 r0 e H0) as [_ Gr]. destruct (Gr He0) as (j&?&?&?). exists j. split_and!; [by apply does_ext|by apply Hst|by apply gets_ext].
      * exists k. split_and!; [by exists t|auto|done].
  - intros e' D e HD He. destruct (Hp e' D HD) as [HD'|[Ha Hsub]].
    + destruct (Gp e' D e HD' He) as (i&j&?&?&?). exists i, j. split_and!; [by apply at_ext|by apply at_ext|by apply tc_ext].
    + destruct (Gk t e (Hsub e He)) as (j&b&Hj&i&Hi'&Hij). exists i, k. split_and!; [by apply at_ext|by exists t, a|].
      eapply tc_rtc_l; [by apply rtc_ext|]. apply tc_once. eapply E_thread; [|by apply look_ext|done]. by apply lookup_lt_Some in Hj.
  - intros i e Hix. destruct (Hat i e Hix) as [[_ Ha]|Hi']; [|specialize (Ge i e Hi'); fold c in Ge; lia].
    destruct Hx as [[Hx _]|[Hx ->]]; rewrite Hx in Ha; simplify_eq; lia.
  - intros i j e Hix Hj. destruct (Hat i e Hix) as [[-> Ha]|Hi'], (Hat j e Hj) as [[-> Hb]|Hj']; [done| | |by eapply G1].
    + apply Ge in Hj'. fold c in Hj'. destruct Hx as [[Hx _]|[Hx _]]; rewrite Hx in Ha; simplify_eq; lia.
    + apply Ge in Hi'. fold c in Hi'. destruct Hx as [[Hx _]|[Hx _]]; rewrite Hx in Hb; simplify_eq; lia.
  - intros b Hb. destruct (Ht b Hb) as [Hb'|[<- Ha]]; [|by exists k, a]. destruct (Gt b Hb') as (i&x&?&?). exists i, x. eauto using look_ext.
  - done.
  - done.
  - done.
  - intros i e j z q r [u Hu]. destruct (Hinv _ _ Hu) as [[_ [= _ Ha]]|Hi']; [by eapply Hc|]. assert (j < nxt c); [|lia]. eapply (Gc i e j z q r). by exists u.
Qed.

(** one that writes to no counter *)
Lemma writes_ev lg t a n i : act_ev a = None ∨ act_ev a = Some n → (∀ e j z q r, a ≠ XRmw e j z q r) → i < n → writes (lg ++ [(t, a)]) i = writes lg i.
Proof.
  intros Ha Hr Hi. rewrite writes_snoc. unfold write1. simpl. destruct a as [e|e j z q r| | | | | | | |]; try done; [|by destruct (Hr e j z q r)].
  case_decide; [|done]. subst. destruct Ha as [Ha|Ha]; simpl in Ha; simplify_eq. lia.
Qed.
Lemma G_ext' lg d t a d' : GR lg d → let lg' := lg ++ [(t, a)] in let k := length lg in let c := co d in let c' := co d' in
  lk d' = lk d → hi d' = hi d → nd c' = nd c → (∀ e j z q r, a ≠ XRmw e j z q r) →
  (∀ u e, e ∈ knows c' u → e ∈ knows c u ∨ u = t ∧ gets lg' e k) →
  (∀ x w r e, ob c' !! x = Some (w, r) →
    (e ∈ w → (a ≠ XGot x ∧ ∃ w0 r0, ob c !! x = Some (w0, r0) ∧ e ∈ w0) ∨ a = XGot x ∧ gets lg' e k) ∧
    (e ∈ r → (a ≠ XGot x ∧ ∃ w0 r0, ob c !! x = Some (w0, r0) ∧ e ∈ r0) ∨ a = XDone x ∧ gets lg' e k)) →
  (∀ e' D, past c' !! e' = Some D → past c !! e' = Some D ∨ act_ev a = Some e' ∧ ∀ e, e ∈ D → e ∈ knows c t) →
  (act_ev a = None ∧ nxt c' = nxt c ∨ act_ev a = Some (nxt c) ∧ nxt c' = S (nxt c)) →
  (∀ b, b ∈ tr c' → b ∈ tr c ∨ a_tid b = t ∧ act_ev a = Some (a_ev b)) →
  GR lg' d'.
Proof.
  intros HG lg' k c c' El Eh En Ha Hk Ho Hp Hx Ht.
  assert (Hid : ∀ h, idn c' h = idn c h) by (intros h; unfold idn; by rewrite En).
  assert (Hl : ∀ h, lset d' h = lset d h) by (intros h; unfold lset; by rewrite El).
  assert (Hh : ∀ h, hist d' h = hist d h) by (intros h; unfold hist; by rewrite Eh).
  apply (G_ext lg d); try done; fold c c'.
  - intros h e. rewrite Hl, Hid. auto.
  - rewrite En. eauto.
  - intros h w e. rewrite Hh, Hid. auto.
  - intros h i E Hn. fold c' in Hn. rewrite En in Hn. rewrite Hh, (g_wr _ _ HG h i E Hn). symmetry. apply (writes_ev _ _ _ (nxt c)); [tauto|done|by eapply (g_id _ _ HG)].
  - intros h i E Hn. fold c' in Hn. rewrite En in Hn. apply (g_id _ _ HG) in Hn. fold c in Hn. destruct Hx as [[_ ->]|[_ ->]]; lia.
  - fold c c'. rewrite En. apply (g_inj _ _ HG).
  - intros e j z q r ->. by destruct (Ha e j z q r).
Qed.
