(** How a flyweight type is configured by its template arguments:
    H/flyweight.hpp 65-172, H/flyweight_fwd.hpp 32-40, H/tag.hpp 30-42,
    H/{tracking,factory,locking,holder}_tag.hpp, H/detail/value_tag.hpp
    (H/ = /repo/include/boost/flyweight/).

    Types are numbers (classes the user names) and default_value_policy<T>.
    An argument is either of the form [K<T>] for one of the five keywords
    tag<>, tracking<>, factory<>, locking<>, holder<> ([Key]), or any other
    type ([Plain]), about which the predicates is_tag, is_tracking, ... decide.

    Boost.Parameter is not part of /repo.  [bind] is its documented behaviour
    for deduced parameters: arguments are taken in order, an argument with a
    keyword goes to that parameter (repeating a keyword is an error), any other
    one to the first parameter without argument whose predicate accepts it.
    What happens to an argument no parameter is left for is not documented for
    [bind]: [strict = true] if it is an error, [strict = false] if it is left
    out (the second signature of flyweight.hpp, lines 98-115, would not be
    needed if it were an error). *)
From Verif Require Export Prelude.

Inductive ty := Class (n : nat) | DefaultValue (t : ty).
Global Instance ty_eq : EqDecision ty.
Proof. intros x y. unfold Decision. decide equality. apply Nat.eq_dec. Defined.

Inductive cat := Tag | Tracking | Factory | Locking | Holder.
Global Instance cat_eq : EqDecision cat.
Proof. solve_decision. Defined.
Global Instance cat_countable : Countable cat.
Proof.
  refine {| encode c := match c with Tag => 1 | Tracking => 2 | Factory => 3 | Locking => 4 | Holder => 5 end%positive;
            decode p := match p with 1 => Some Tag | 2 => Some Tracking | 3 => Some Factory | 4 => Some Locking | 5 => Some Holder | _ => None end%positive |}.
  by intros [].
Defined.
Inductive arg := Key (c : cat) (t : ty) | Plain (t : ty).

(** the arguments of flyweight_core *)
Record config := Config { c_value : ty; c_tag : option ty; c_tracking : ty; c_factory : ty; c_locking : ty; c_holder : ty }.
Global Instance config_eq : EqDecision config.
Proof. intros x y. unfold Decision. decide equality; try apply ty_eq. decide equality. apply ty_eq. Defined.

(** refcounted, hashed_factory<>, simple_locking, static_holder *)
Definition refcounted : ty := Class 0.
Definition hashed_factory : ty := Class 1.
Definition simple_locking : ty := Class 2.
Definition static_holder : ty := Class 3.

Section config.
  Context (strict : bool).
  Context (is : cat → ty → bool).        (* is_tag, is_tracking, is_factory, is_locking, is_holder *)
  Context (is_value0 : nat → bool).      (* is_value on user classes *)

  (** value_tag.hpp 34-38, default_value_policy.hpp 30: it derives from value_marker *)
  Definition is_value (t : ty) : bool := match t with Class n => is_value0 n | DefaultValue _ => true end.
  (** flyweight.hpp 126-130 *)
  Definition value_policy (t : ty) : ty := if is_value t then t else DefaultValue t.

  (** deduced parameters [ps] (name, predicate) not used yet *)
  Fixpoint deduce {P} (used : P → bool) (ps : list (P * (ty → bool))) (t : ty) : option P :=
    match ps with
    | [] => None
    | (p, q) :: ps => if negb (used p) && q t then Some p else deduce used ps t
    end.
  (** 73-96; the order matters if a type satisfies several predicates *)
  Definition signature : list (cat * (ty → bool)) :=
    [(Tag, is Tag); (Tracking, is Tracking); (Factory, is Factory); (Locking, is Locking); (Holder, is Holder)].
  Fixpoint bind (pack : gmap cat ty) (args : list arg) : option (gmap cat ty) :=
    match args with
    | [] => Some pack
    | Key c t :: args => if pack !! c then None else bind (<[c:=t]> pack) args
    | Plain t :: args =>
        match deduce (λ c, if pack !! c then true else false) signature t with
        | Some c => bind (<[c:=t]> pack) args
        | None => if strict then None else bind pack args
        end
    end.
  (** 98-115, 151-158: the argument bound to unmatched_arg, if any *)
  Definition matches_none (t : ty) : bool := negb (is Tag t || is Tracking t || is Factory t || is Locking t || is Holder t).
  Fixpoint unmatched (args : list arg) : option ty :=
    match args with
    | [] => None
    | Key _ _ :: args => unmatched args
    | Plain t :: args => if matches_none t then Some t else unmatched args
    end.

  (** 123-172 for at most five arguments; None: ill-formed *)
  Definition resolve (t : ty) (args : list arg) : option config :=
    if decide (5 < length args) then None else
    match bind ∅ args with
    | None => None
    | Some pack =>
        match unmatched args with
        | Some _ => None                                         (* 163-166 *)
        | None => Some (Config (value_policy t)                  (* 126-130 *)
                   (pack !! Tag)                                 (* 135-137; mpl::na if missing *)
                   (default refcounted (pack !! Tracking))       (* 138-140 *)
                   (default hashed_factory (pack !! Factory))    (* 141-143 *)
                   (default simple_locking (pack !! Locking))    (* 144-146 *)
                   (default static_holder (pack !! Holder)))     (* 147-149 *)
        end
    end.
End config.

(** A program using any number of flyweight types.  Each core, that is each
    specialization of flyweight_core, has its own static data members and its
    own holder_arg (flyweight_core.hpp 214-222, 314-316), so its own state;
    [St c], [Op c] and [behave] are the machine of core [c] (for instance that
    of [Core.v] with the policies of [c]).  An operation is performed through a
    flyweight type, given by its template arguments. *)
Inductive outcome (S : Type) := Goes (s : S) | Waits | Undefined.
Global Arguments Goes {_} _.
Global Arguments Waits {_}.
Global Arguments Undefined {_}.
Section program.
  Context (strict : bool) (is : cat → ty → bool) (is_value0 : nat → bool).
  Context (St Op : config → Type) (behave : ∀ c, St c → Op c → outcome (St c)).
  Definition states := ∀ c, St c.
  Definition upd (c : config) (x : St c) (m : states) : states :=
    λ c', match decide (c = c') with left e => eq_rect c St x c' e | right _ => m c' end.
  (** an operation through type flyweight<t,args> *)
  Record event := Event { e_type : ty; e_args : list arg; e_conf : config; e_ok : resolve strict is is_value0 e_type e_args = Some e_conf; e_op : Op e_conf }.
  Definition perform (m : states) (e : event) : outcome states :=
    match behave (e_conf e) (m (e_conf e)) (e_op e) with
    | Goes x => Goes (upd (e_conf e) x m)
    | Waits => Goes m
    | Undefined => Undefined
    end.
  Fixpoint perform_all (m : states) (es : list event) : outcome states :=
    match es with
    | [] => Goes m
    | e :: es => match perform m e with Goes m' => perform_all m' es | _ => Undefined end
    end.
  (** one core alone *)
  Fixpoint solo (c : config) (x : St c) (os : list (Op c)) : outcome (St c) :=
    match os with
    | [] => Goes x
    | o :: os => match behave c x o with Goes x' => solo c x' os | Waits => solo c x os | Undefined => Undefined end
    end.
  (** operations of the flyweight types with configuration [c] *)
  Fixpoint ops_of (c : config) (es : list event) : list (Op c) :=
    match es with
    | [] => []
    | e :: es => match decide (e_conf e = c) with left p => eq_rect (e_conf e) Op (e_op e) c p :: ops_of c es | right _ => ops_of c es end
    end.
End program.
