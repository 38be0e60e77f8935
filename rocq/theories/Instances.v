(** A concrete configuration used in the examples beside the theorems. *)
From Verif Require Export Policies SetFactoryProofs HashedFactoryProofs CoreTrace CoreSpec.

(** Keys: a number and the flyweights it holds; equivalent when the numbers
    agree modulo 10 and the flyweights are the same.  13 makes the key
    constructor throw.  The value of a key is the square of its number. *)
Definition ikey : Type := nat * list addr.
Definition imk (a : nat) (ks : list addr) : option ikey := if decide (a = 13) then None else Some (a, ks).
Definition ieq (k l : ikey) : bool := bool_decide (fst k mod 10 = fst l mod 10) && bool_decide (snd k = snd l).
Definition ihash (k : ikey) : nat := fst k mod 10.
Definition igrow (n b : nat) : option nat := if b <? n then Some (2 * b) else None.
Definition iP : policy ikey nat (prep (K:=ikey) (V:=nat)) nat := product_policy imk snd (λ k, fst k * fst k).
Definition iFS : factory ikey := hashed_factory ihash ieq 1 igrow.
Definition igood : prep → Prop := product_good (λ k : ikey, fst k * fst k).

Lemma ieq_equivalence : equivalence ieq.
Proof.
  unfold ieq. split.
  - intros k. by rewrite !bool_decide_true.
  - intros k l [H1%bool_decide_eq_true H2%bool_decide_eq_true]%andb_true_iff. by rewrite !bool_decide_true.
  - intros k l m [H1%bool_decide_eq_true H2%bool_decide_eq_true]%andb_true_iff
      [H3%bool_decide_eq_true H4%bool_decide_eq_true]%andb_true_iff.
    rewrite !bool_decide_true; [done|congruence|congruence].
Qed.

Lemma iP_ok : policy_ok ieq igood iP.
Proof.
  apply product_policy_ok.
  - apply (eqv_refl _ ieq_equivalence).
  - unfold imk. intros a ks k H. case_decide; simplify_eq. done.
Qed.

Definition iHF : factory_spec ieq iFS.
Proof.
  apply hashed_factory_spec; [apply ieq_equivalence|].
  intros k l [H1%bool_decide_eq_true _]%andb_true_iff. done.
Defined.

Definition rc : config := Config true true.      (* refcounted, simple_locking *)
Definition nt : config := Config false true.     (* no_tracking, simple_locking *)
Definition rc1 : config := Config true false.    (* refcounted, no_locking *)
Definition nt1 : config := Config false false.   (* no_tracking, no_locking *)

(** run an API call of thread [t] to completion, allocating at [a] if
    needed *)
Definition call (t : tid) (o : op (A:=nat)) (a : addr) : list label :=
  LStart t o :: replicate 40 (LRun t (Choice a false)).

Definition final {K A R V} (P : policy K A R V) (FS : factory K) cfg ls : state (K:=K) (A:=A) (R:=R) FS :=
  match run P FS cfg (init FS) ls with Next s => s | _ => init FS end.

(** [nexts s ls] / [next s l]: the state after a schedule / a step (the
    lemmas avoid printing states during computation) *)
Section Nexts.
  Context {K A R V} (P : policy K A R V) (FS : factory K) (cfg : config).
  Notation state := (state (K:=K) (A:=A) (R:=R) FS).
  Definition is_next (r : res (K:=K) (A:=A) (R:=R) FS) : bool := match r with Next _ => true | _ => false end.
  Definition nexts (s : state) (ls : list label) : state :=
    match run P FS cfg s ls with Next s' => s' | _ => s end.
  Definition next (s : state) (l : label) : state :=
    match step P FS cfg s l with Next s' => s' | _ => s end.
  Lemma final_ok ls : is_next (run P FS cfg (init FS) ls) = true →
    run P FS cfg (init FS) ls = Next (final P FS cfg ls).
  Proof. unfold final. by destruct (run P FS cfg (init FS) ls). Qed.
  Lemma nexts_ok s ls : is_next (run P FS cfg s ls) = true → run P FS cfg s ls = Next (nexts s ls).
  Proof. unfold nexts. by destruct (run P FS cfg s ls). Qed.
  Lemma next_ok s l : is_next (step P FS cfg s l) = true → step P FS cfg s l = Next (next s l).
  Proof. unfold next. by destruct (step P FS cfg s l). Qed.
  Lemma final_reachable t0 ls : sched_ok cfg t0 ls → is_next (run P FS cfg (init FS) ls) = true →
    reachable P FS cfg t0 (final P FS cfg ls).
  Proof. intros Hok H. exists ls. split; [done|]. by apply final_ok. Qed.
End Nexts.
Global Arguments is_next {_ _ _ _} _.

Lemma quiescent_by {K A R} {FS : factory K} (s : state (K:=K) (A:=A) (R:=R) FS) :
  forallb (λ tk : nat * list instr, match snd tk with [] => true | _ => false end) (map_to_list (stacks s)) = true →
  quiescent s.
Proof.
  intros H t. unfold stack. destruct (stacks s !! t) as [k|] eqn:E; [|done]. simpl.
  apply elem_of_map_to_list in E. rewrite forallb_forall in H.
  apply elem_of_list_In in E. apply H in E. simpl in E. by destruct k.
Qed.

(** Thread 1 creates 0:=7, thread 2 creates 1:=17 (equivalent) interleaved
    with it; then 2:=3, 3:=composite 5 holding 0 and 2, copy 4:=3. *)
Definition demo : list label :=
  [LStart 1 (ONew 0 7 []); LStart 2 (ONew 1 17 [])] ++
  concat (replicate 20 [LRun 1 (Choice 100 false); LRun 2 (Choice 101 false)]) ++
  call 1 (ONew 2 3 []) 102 ++ call 2 (ONew 3 5 [0; 2]) 103 ++ call 1 (OCopy 4 3) 0 ++
  call 2 (OGet 4) 0.
