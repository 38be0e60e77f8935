(** Programs that use flyweights (the programs of /repo/example): one thread of
    the machine of [Core.v] runs a program, other threads do anything with
    their own objects.  The values are trees, as in [PropStruct.v]. *)
From Verif Require Import SerializeProofs CoreRace Instances PropInner.
From Verif Require Export PropStruct.

(** induction over trees *)
Lemma tree_ind' {L} (Q : tree L → Prop) : (∀ l ts, Forall Q ts → Q (Tree l ts)) → ∀ T, Q T.
Proof. intros H. fix IH 1. intros [l ts]. apply H. induction ts as [|T ts IHt]; constructor; [apply IH|apply IHt]. Qed.

Section Client.
  Context {K A R V L O : Type}.
  Context (P : policy K A R V) (FS : factory K) (cfg : config).
  Context (lab : R → L).
  Notation state := (state (R:=R) (K:=K) (A:=A) FS).
  Notation op := (op (A:=A)).
  Notation label := (label (A:=A)).

  (** [Call o k]: a call, which returns ([k true]) or, if it constructs a
      flyweight, may throw ([k false]); [Look x path k]: get() of [x], of the
      flyweight at the given place in its value, and so on: what the value found
      holds beside flyweights, and the number of flyweights in it.  [Same]:
      operator== on two flyweights, found in the same way. *)
  Inductive prog :=
  | Ret (o : O)
  | Call (o : op) (k : bool → prog)
  | Look (x : var) (path : list nat) (k : L → nat → prog)
  | Same (x : var) (path : list nat) (y : var) (path' : list nat) (k : bool → prog).

  (** ** The machine *)

  (** flyweight_core.hpp 186-194 at each level.  [None]: undefined behaviour, or
      there is no such flyweight. *)
  Definition found (s : state) (x : var) (path : list nat) : option (addr * R) :=
    match live s x with
    | Some h => match inner P FS s h path with
                | Some (Some h') =>
                    match entry s h' with
                    | Some n => match p_val P (n_rep n) with Some _ => Some (h', n_rep n) | None => None end
                    | None => None
                    end
                | _ => None
                end
    | None => None
    end.
  Definition look (s : state) (x : var) (path : list nat) : option (L * nat) :=
    match found s x path with Some (_, r) => Some (lab r, length (p_kids P r)) | None => None end.
  (** flyweight.hpp 257-269: the addresses of the values are compared *)
  Definition same (s : state) (x : var) (path : list nat) (y : var) (path' : list nat) : option bool :=
    match found s x path, found s y path' with Some (h, _), Some (h', _) => Some (bool_decide (h = h')) | _, _ => None end.
  Definition made_it (s : state) (o : op) : bool :=
    match o with ONew x _ _ => match live s x with Some _ => true | None => false end | _ => true end.

  (** [w]: a call of the program is in progress *)
  Notation config := (state * bool * prog)%type.
  Inductive clab := Env (l : label) | Go.
  (** [Go]: the program goes on; [Env]: a thread, possibly that of the program,
      executes a step of the library, or another thread makes a call.  [None]:
      undefined behaviour or use of an object that does not exist. *)
  Definition pgo (t : tid) (c : config) : option config :=
    let '(s, w, p) := c in
    match p with
    | Ret _ => Some c
    | Call o k =>
        if w then match stack s t with [] => Some (s, false, k (made_it s o)) | _ => Some c end
        else match step P FS cfg s (LStart t o) with Next s' => Some (s', true, p) | _ => None end
    | Look x path k => match look s x path with Some (l, n) => Some (s, false, k l n) | None => None end
    | Same x path y path' k => match same s x path y path' with Some b => Some (s, false, k b) | None => None end
    end.
  Definition pstep (t : tid) (c : config) (l : clab) : option config :=
    let '(s, w, p) := c in
    match l with
    | Env l => if starts t l then Some c
               else match step P FS cfg s l with Next s' => Some (s', w, p) | Stuck => Some c | Undef => None end
    | Go => pgo t c
    end.
  Fixpoint prun (t : tid) (c : config) (ls : list clab) : option config :=
    match ls with
    | [] => Some c
    | l :: ls => match pstep t c l with Some c => prun t c ls | None => None end
    end.
End Client.
Global Arguments Ret {_ _ _} _.
Global Arguments Call {_ _ _} _ _.
Global Arguments Look {_ _ _} _ _ _.
Global Arguments Same {_ _ _} _ _ _ _ _.
Global Arguments Env {_} _.
Global Arguments Go {_}.

(** ** The same program with plain values *)
Section Plain.
  Context {A L O : Type}.
  (** the names of the objects of the program; what a value made from arguments
      [a] and [n] flyweights holds beside these *)
  Context (own : var → Prop) (makes : A → nat → L → Prop).
  Notation env := (gmap var (tree L)).
  Notation prog := (prog (A:=A) (L:=L) (O:=O)).

  Fixpoint subtree (T : tree L) (path : list nat) : option (tree L) :=
    match path with
    | [] => Some T
    | j :: path => let 'Tree _ ts := T in match ts !! j with Some U => subtree U path | None => None end
    end.
  (** [throws]: constructors may throw *)
  Inductive plain (throws : bool) : prog * env → prog * env → Prop :=
  | Pl_new x a ys ts l k M : own x → M !! x = None → Forall2 (λ y T, M !! y = Some T) ys ts → makes a (length ts) l →
      plain throws (Call (ONew x a ys) k, M) (k true, <[x:=Tree l ts]> M)
  | Pl_throw x a ys ts l k M : throws = true → own x → M !! x = None → Forall2 (λ y T, M !! y = Some T) ys ts → makes a (length ts) l →
      plain throws (Call (ONew x a ys) k, M) (k false, M)
  | Pl_copy x y T k M : own x → M !! x = None → M !! y = Some T → plain throws (Call (OCopy x y) k, M) (k true, <[x:=T]> M)
  | Pl_assign x y T U k M : M !! x = Some T → M !! y = Some U → plain throws (Call (OAssign x y) k, M) (k true, <[x:=U]> M)
  | Pl_swap x y T U k M : M !! x = Some T → M !! y = Some U → plain throws (Call (OSwap x y) k, M) (k true, <[y:=T]> (<[x:=U]> M))
  | Pl_destroy x T k M : M !! x = Some T → plain throws (Call (ODestroy x) k, M) (k true, delete x M)
  | Pl_get x T k M : M !! x = Some T → plain throws (Call (OGet x) k, M) (k true, M)
  | Pl_inner x y path T U k M : own x → M !! x = None → M !! y = Some T → subtree T path = Some U →
      plain throws (Call (OInner x y path) k, M) (k true, <[x:=U]> M)
  | Pl_look x path T l us k M : M !! x = Some T → subtree T path = Some (Tree l us) →
      plain throws (Look x path k, M) (k l (length us), M)
  | Pl_same x path y path' T U T' U' k b M : M !! x = Some T → subtree T path = Some T' → M !! y = Some U → subtree U path' = Some U' →
      (b = true ↔ T' = U') → plain throws (Same x path y path' k, M) (k b, M).
  (** with plain values the program never uses an object that does not exist *)
  Definition safe (p : prog) (M : env) : Prop :=
    ∀ p' M', rtc (plain true) (p, M) (p', M') → (∃ o, p' = Ret o) ∨ ∃ c, plain true (p', M') c.
End Plain.

(** ** Reasoning about programs with plain values: weakest preconditions *)
Lemma tree_dec {L} `{EqDecision L} (T : tree L) : ∀ U, T = U ∨ T ≠ U.
Proof.
  induction T as [l ts IH] using tree_ind'. intros [l' us]. destruct (decide (l = l')) as [<-|Hl]; [|right; by intros [= ->]].
  enough (ts = us ∨ ts ≠ us) as [->|Hne] by first [by left|right; by intros [= ->]].
  revert us. induction IH as [|T ts HT _ IHt]; intros [|U us]; [by left|by right|by right|].
  destruct (HT U) as [->|Hne]; [|right; by intros [= ->]]. destruct (IHt us) as [->|Hne]; [by left|right; by intros [= ->]].
Qed.
Section Wp.
  Context {A L O : Type} `{EqDecision L} (own : var → Prop) (makes : A → nat → L → Prop) (thr : bool).
  Context (Hfun : ∀ a n l l', makes a n l → makes a n l' → l = l').
  Notation env := (gmap var (tree L)).
  Notation prog := (prog (A:=A) (L:=L) (O:=O)).
  Notation plain := (plain (O:=O) own makes thr).

  Fixpoint wp (p : prog) (M : env) (Q : O → env → Prop) : Prop :=
    match p with
    | Ret o => Q o M
    | Look x path k => ∃ T l us, M !! x = Some T ∧ subtree T path = Some (Tree l us) ∧ wp (k l (length us)) M Q
    | Same x path y path' k => ∃ T U T' U', M !! x = Some T ∧ subtree T path = Some T' ∧ M !! y = Some U ∧ subtree U path' = Some U' ∧
        ∀ b, (b = true ↔ T' = U') → wp (k b) M Q
    | Call o k =>
        match o with
        | ONew x a ys => own x ∧ M !! x = None ∧ ∃ ts l, Forall2 (λ y T, M !! y = Some T) ys ts ∧ makes a (length ts) l ∧
            wp (k true) (<[x:=Tree l ts]> M) Q ∧ (thr = true → wp (k false) M Q)
        | OCopy x y => own x ∧ M !! x = None ∧ ∃ T, M !! y = Some T ∧ wp (k true) (<[x:=T]> M) Q
        | OAssign x y => ∃ T U, M !! x = Some T ∧ M !! y = Some U ∧ wp (k true) (<[x:=U]> M) Q
        | OSwap x y => ∃ T U, M !! x = Some T ∧ M !! y = Some U ∧ wp (k true) (<[y:=T]> (<[x:=U]> M)) Q
        | ODestroy x => ∃ T, M !! x = Some T ∧ wp (k true) (delete x M) Q
        | OGet x => ∃ T, M !! x = Some T ∧ wp (k true) M Q
        | OInner x y path => own x ∧ M !! x = None ∧ ∃ T U, M !! y = Some T ∧ subtree T path = Some U ∧ wp (k true) (<[x:=U]> M) Q
        end
    end.
  Lemma vals_fun (M : env) ys ts ts' : Forall2 (λ y T, M !! y = Some T) ys ts → Forall2 (λ y T, M !! y = Some T) ys ts' → ts = ts'.
  Proof. intros H. revert ts'. induction H as [|y T ys ts Hy _ IH]; intros ts' H'; inversion H'; subst; [done|]. f_equal; [congruence|by apply IH]. Qed.
  Lemma wp_step p M Q c : wp p M Q → plain (p, M) c → wp c.1 c.2 Q.
  Proof.
    intros Hw Hp. inversion Hp; subst; simpl in *.
    - destruct Hw as (_&_&ts'&l'&Hts&Hl&Hw&_). assert (ts' = ts) as -> by (by eapply vals_fun). match goal with Hm : makes _ _ l |- _ => by rewrite (Hfun _ _ _ _ Hl Hm) in Hw end.
    - destruct Hw as (_&_&ts'&l'&_&_&_&Hw). by apply Hw.
    - destruct Hw as (_&_&T'&?&?). by simplify_eq.
    - destruct Hw as (T'&U'&?&?&?). by simplify_eq.
    - destruct Hw as (T'&U'&?&?&?). by simplify_eq.
    - destruct Hw as (T'&?&?). by simplify_eq.
    - destruct Hw as (T'&?&?). by simplify_eq.
    - destruct Hw as (_&_&T'&U'&?&?&?). by simplify_eq.
    - destruct Hw as (T'&l'&us'&?&?&?). by simplify_eq.
    - destruct Hw as (T1&U1&T2&U2&?&?&?&?&Hb). simplify_eq. by apply Hb.
  Qed.
  Lemma wp_progress p M Q : wp p M Q → (∃ o, p = Ret o) ∨ ∃ c, plain (p, M) c.
  Proof.
    destruct p as [o|[x a ys|x y|x y|x y|x|x|x y path] k|x path k|x path y path' k]; [eauto|..]; simpl; intros H; right.
    - destruct H as (?&?&ts&l&?&?&_). eexists. by eapply Pl_new.
    - destruct H as (?&?&T&?&_). eexists. by eapply Pl_copy.
    - destruct H as (T&U&?&?&_). eexists. by eapply Pl_assign.
    - destruct H as (T&U&?&?&_). eexists. by eapply Pl_swap.
    - destruct H as (T&?&_). eexists. by eapply Pl_destroy.
    - destruct H as (T&?&_). eexists. by eapply Pl_get.
    - destruct H as (?&?&T&U&?&?&_). eexists. by eapply Pl_inner.
    - destruct H as (T&l&us&?&?&_). eexists. by eapply Pl_look.
    - destruct H as (T&U&T'&U'&?&?&?&?&_).
      destruct (tree_dec T' U') as [E|E]; eexists; [by eapply (Pl_same _ _ _ x path y path' T U T' U' k true)|by eapply (Pl_same _ _ _ x path y path' T U T' U' k false)].
  Qed.
  Lemma wp_steps p M Q p' M' : wp p M Q → rtc plain (p, M) (p', M') → wp p' M' Q.
  Proof.
    intros Hw Hr. remember (p, M) as c eqn:Ec. remember (p', M') as c' eqn:Ec'. revert p M Ec Hw.
    induction Hr as [c|c [p1 M1] c' H1 _ IH]; intros p M -> Hw; [by simplify_eq|]. apply (IH Ec' p1 M1 eq_refl). by apply (wp_step _ _ _ _ Hw H1).
  Qed.
  Lemma wp_mono p (Q Q' : O → env → Prop) : (∀ o M, Q o M → Q' o M) → ∀ M, wp p M Q → wp p M Q'.
  Proof.
    intros HQ. induction p as [o|[x a ys|x y|x y|x y|x|x|x y path] k IH|x path k IH|x path y path' k IH]; simpl; intros M; [apply HQ|..].
    - intros (?&?&ts&l&?&?&?&?). split; [done|]. split; [done|]. exists ts, l. split; [done|]. split; [done|]. split; [by apply IH|]. intros. apply IH. auto.
    - intros (?&?&T&?&?). split; [done|]. split; [done|]. exists T. split; [done|]. by apply IH.
    - intros (T&U&?&?&?). exists T, U. split; [done|]. split; [done|]. by apply IH.
    - intros (T&U&?&?&?). exists T, U. split; [done|]. split; [done|]. by apply IH.
    - intros (T&?&?). exists T. split; [done|]. by apply IH.
    - intros (T&?&?). exists T. split; [done|]. by apply IH.
    - intros (?&?&T&U&?&?&?). split; [done|]. split; [done|]. exists T, U. split; [done|]. split; [done|]. by apply IH.
    - intros (T&l&us&?&?&?). exists T, l, us. split; [done|]. split; [done|]. by apply IH.
    - intros (T&U&T'&U'&?&?&?&?&Hb). exists T, U, T', U'. split; [done|]. split; [done|]. split; [done|]. split; [done|]. intros b E. by apply IH, Hb.
  Qed.
End Wp.
Lemma wp_safe {A L O} `{EqDecision L} (own : var → Prop) (makes : A → nat → L → Prop) (p : prog (A:=A) (L:=L) (O:=O)) M Q : (∀ a n l l', makes a n l → makes a n l' → l = l') → wp own makes true p M Q → safe own makes p M.
Proof. intros Hf Hw p' M' Hr. eapply wp_progress, wp_steps; done. Qed.
