(** Which operator is called for which operands, and what it does when the
    values are flyweights themselves: H/flyweight.hpp 255-274 (friends), 284-506
    (templates), H/flyweight_fwd.hpp 32-160, H/serialize.hpp 32-71
    (H/ = /repo/include/boost/flyweight/).

    A type is a class ([Base]), a flyweight type with its five policy arguments
    ([Fly]; None is parameter::void_) or a class derived from one ([Der]).
    Operands are const lvalues.  The rules for choosing among overloads are
    those of the language before C++20 (no reversed candidates), for compilers
    that order function templates. *)
From Verif Require Export Config.

Global Instance arg_eq : EqDecision arg.
Proof. solve_decision. Defined.

Inductive oty := Base (n : nat) | Fly (v : oty) (args : list (option arg)) | Der (n : nat) (f : oty).
Global Instance oty_eq : EqDecision oty.
Proof. solve_decision. Defined.

(** parameters: const flyweight<T,Arg1,...,Argn>& (the remaining arguments have
    their default void_), const T&, const C& for a class C *)
Inductive opar := PFw (n : nat) | PAny | PCls (t : oty).
Global Instance opar_eq : EqDecision opar.
Proof. solve_decision. Defined.

(** the flyweight type an object is, or is derived from *)
Definition fly_base (t : oty) : option (oty * bool) :=
  match t with Fly _ _ => Some (t, false) | Der _ (Fly v args) => Some (Fly v args, true) | _ => None end.

(** template argument deduction *)
Definition deducible (n : nat) (t : oty) : bool :=
  match t with Fly _ args => forallb (λ a, negb (bool_decide (is_Some a))) (drop n args) | _ => false end.

(** ** Functions with one flyweight parameter *)
Inductive fn := OpOut | OpIn | HashValue | StdHash | Serialize | Save | Load.
Definition fn_par (f : fn) : opar :=
  match f with
  | OpOut => PFw 5       (* flyweight.hpp 427-434 *)
  | OpIn => PFw 5        (* 439-446 *)
  | HashValue => PFw 5   (* 496-498 *)
  | StdHash => PFw 5     (* 470-472 *)
  | Serialize => PFw 3   (* serialize.hpp 32-38 *)
  | Save => PFw 3        (* 43-49 *)
  | Load => PFw 3        (* 65-71 *)
  end.
Definition accepts (f : fn) (t : oty) : bool := match fn_par f with PFw n => deducible n t | _ => false end.
(** flyweight.hpp 419-422: both of one type *)
Definition swap_accepts (t u : oty) : bool := bool_decide (t = u) && deducible 5 t.

(** ** Comparison operators *)
Inductive cop := CEq | CNe | CLt | CGt | CLe | CGe.
Global Instance cop_eq : EqDecision cop.
Proof. solve_decision. Defined.
(** friend of class F | flyweight and flyweight | flyweight and other | other
    and flyweight | an operator of the user *)
Inductive act := AFriend (f : oty) | ABoth | ALeft | ARight | AUser (i : nat).
Global Instance act_eq : EqDecision act.
Proof. solve_decision. Defined.
Record ocand := OCand { o_act : act; o_tmpl : bool; o_l : opar; o_r : opar }.
Global Instance ocand_eq : EqDecision ocand.
Proof. solve_decision. Defined.

Section operators.
  (** implicit conversions by user classes; user operators, not templates, for
      classes that are not flyweights *)
  Context (ucv : oty → oty → bool) (user_ops : cop → list (nat * nat * nat)).

  Definition derives (t u : oty) : bool := match t with Der _ f => bool_decide (f = u) | _ => false end.
  (** flyweight.hpp 251: conversion to value_type; the constructors are explicit *)
  Definition to_value (t u : oty) : bool :=
    match fly_base t with Some (Fly v _, _) => bool_decide (v = u) || derives v u | _ => false end.
  (** rank of the conversion: 0 exact, 1 derived to base, 2 user-defined *)
  Definition conv (p : opar) (t : oty) : option nat :=
    match p with
    | PAny => Some 0
    | PFw n => match fly_base t with
               | Some (f, b) => if deducible n f then Some (if b then 1 else 0) else None
               | None => None
               end
    | PCls u => if decide (t = u) then Some 0 else if derives t u then Some 1
                else if to_value t u || ucv t u then Some 2 else None
    end.

  (** classes whose friends are found by argument dependent lookup *)
  Fixpoint associated (t : oty) : list oty :=
    match t with Base _ => [] | Fly v _ => t :: associated v | Der _ f => associated f end.
  Definition templates : list ocand :=
    [OCand ABoth true (PFw 5) (PFw 5); OCand ALeft true (PFw 5) PAny; OCand ARight true PAny (PFw 5)].
  Definition candidates (o : cop) (t u : oty) : list ocand :=
    (match o with
     | CEq | CNe => (λ f, OCand (AFriend f) false (PCls f) (PCls f)) <$> remove_dups (associated t ++ associated u)   (* 257-274 *)
     | _ => []
     end) ++
    (if bool_decide (associated t ++ associated u = []) then [] else templates) ++    (* 294-415, found in namespace flyweights *)
    ((λ i, OCand (AUser i.1.1) false (PCls (Base i.1.2)) (PCls (Base i.2))) <$> user_ops o).
  Definition viable (t u : oty) (c : ocand) : option (nat * nat) :=
    match conv (o_l c) t, conv (o_r c) u with Some i, Some j => Some (i, j) | _, _ => None end.

  (** partial ordering of the templates *)
  Definition more_special (p q : opar) : bool := match p, q with PFw _, PAny => true | _, _ => false end.
  Definition at_least (p q : opar) : bool := match p, q with PAny, PFw _ => false | _, _ => true end.
  Definition special (c d : ocand) : bool :=
    at_least (o_l c) (o_l d) && at_least (o_r c) (o_r d) && (more_special (o_l c) (o_l d) || more_special (o_r c) (o_r d)).
  (** two user-defined conversions by different functions are not ordered *)
  Definition better (t u : oty) (c d : ocand) : bool :=
    match viable t u c, viable t u d with
    | Some (i, j), Some (k, l) =>
        (i <=? k) && (j <=? l) &&
        ((i <? k) || (j <? l) || (negb (o_tmpl c) && o_tmpl d) || (o_tmpl c && o_tmpl d && special c d))
    | Some _, None => true
    | None, _ => false
    end.
  Inductive choice := Chosen (a : act) | Ambiguous | NoMatch.
  Definition choose (o : cop) (t u : oty) : choice :=
    let cs := filter (λ c, bool_decide (is_Some (viable t u c)) = true) (candidates o t u) in
    match filter (λ c, forallb (λ d, bool_decide (c = d) || better t u c d) cs = true) cs with
    | c :: _ => Chosen (o_act c)
    | [] => match cs with [] => NoMatch | _ => Ambiguous end
    end.

  (** ** What the operators return.  A flyweight object is the address of its
      entry and the value there. *)
  Inductive oval := VBase (n : nat) (x : nat) | VFly (args : list (option arg)) (a : nat) (v : oval) | VDer (n : nat) (f : oval).
  Fixpoint type_of (x : oval) : oty :=
    match x with VBase n _ => Base n | VFly args _ v => Fly (type_of v) args | VDer n f => Der n (type_of f) end.
  (** get(): of the flyweight the object is, or has as base *)
  Definition get_value (x : oval) : option oval :=
    match x with VFly _ _ v | VDer _ (VFly _ _ v) => Some v | _ => None end.
  (** the object an argument of a parameter const F& is bound to *)
  Definition bound (f : oty) (x : oval) : option oval :=
    if decide (type_of x = f) then Some x
    else match x with
         | VDer _ g => if decide (type_of g = f) then Some g else match g with VFly _ _ v => if decide (type_of v = f) then Some v else None | _ => None end
         | VFly _ _ v => if decide (type_of v = f) then Some v else match v with VDer _ g => if decide (type_of g = f) then Some g else None | _ => None end
         | _ => None
         end.
  Definition address (x : oval) : option nat := match x with VFly _ a _ => Some a | _ => None end.

  (** operators of the user, by number, on plain classes *)
  Context (user : cop → nat → oval → oval → option bool).
  Inductive res := Ret (b : bool) | IllFormed | NoFuel.
  Definition negate (r : res) : res := match r with Ret b => Ret (negb b) | _ => r end.
  Fixpoint compare (fuel : nat) (o : cop) (x y : oval) : res :=
    match fuel with
    | 0 => NoFuel
    | S n =>
        match choose o (type_of x) (type_of y) with
        | Chosen (AFriend f) =>
            match bound f x, bound f y with
            | Some x, Some y =>
                match o with
                | CEq => match address x, address y with Some a, Some b => Ret (bool_decide (a = b)) | _, _ => IllFormed end   (* 267 *)
                | _ => negate (compare n CEq x y)                                                                          (* 273 *)
                end
            | _, _ => IllFormed
            end
        | Chosen (AUser i) => match user o i x y with Some b => Ret b | None => IllFormed end
        | Chosen a =>
            match o with
            | CEq | CLt =>
                match a, get_value x, get_value y with
                | ABoth, Some v, Some w => compare n o v w       (* 302, 313 *)
                | ALeft, Some v, _ => compare n o v y            (* 324, 344 *)
                | ARight, _, Some w => compare n o x w           (* 334, 354 *)
                | _, _, _ => IllFormed
                end
            | CNe => negate (compare n CEq x y)                  (* 364 *)
            | CGt => compare n CLt y x                           (* 370 *)
            | CGe => negate (compare n CLt x y)                  (* 376 *)
            | CLe => negate (compare n CLt y x)                  (* 382 *)
            end
        | _ => IllFormed
        end
    end.
End operators.
