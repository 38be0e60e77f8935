(** Which constructor or function is called for which arguments:
    H/detail/perfect_fwd.hpp, H/detail/pp_perfect_fwd.hpp,
    H/detail/dyn_perfect_fwd.hpp, H/flyweight.hpp 191-239,
    H/detail/flyweight_core.hpp 165-184, 261-312,
    H/detail/default_value_policy.hpp 36-68, H/key_value.hpp 56-95, 200-231
    (H/ = /repo/include/boost/flyweight/).

    The rules of the language for choosing among overloads are written down
    for the kinds of parameters occurring there ([over.ics.rank],
    [over.match.best], [temp.deduct.partial]).  An argument is an expression
    of class type, const or not, lvalue or rvalue.  Not modelled: volatile,
    braced lists and overload sets as arguments, types that are not classes
    (they have fewer conversions), access control. *)
From Verif Require Export Prelude.

Record expr := Expr { e_ty : nat; e_const : bool; e_lv : bool }.
Global Instance expr_eq : EqDecision expr.
Proof. solve_decision. Defined.

(** parameters: T&& | T& | const T& with T deduced | [const] t& or [const] t&&
    for a given class | std::initializer_list<V> with V deduced *)
Inductive param := PFwd | PRef | PCRef | PFix (t : nat) (c lref : bool) | PIList.
Global Instance param_eq : EqDecision param.
Proof. solve_decision. Defined.
(** what the body does with the arguments *)
Inductive action := ADefault | AForward | AIList | ACopy | AValue (c lref : bool) | ARep.
Global Instance action_eq : EqDecision action.
Proof. solve_decision. Defined.
(** [pack]: a template with parameters Args&&... *)
Record cand := Cand { c_act : action; c_tmpl : bool; c_explicit : bool; c_pack : bool; c_par : list param }.
Global Instance cand_eq : EqDecision cand.
Proof. solve_decision. Defined.

Definition params (c : cand) (n : nat) : list param := if c_pack c then replicate n PFwd else c_par c.

Section language.
  Context (derives : nat → nat → bool).                  (* proper derived class *)
  Context (ucv : nat → nat → option (bool * bool)).      (* user-defined conversion (not explicit) from a class to another: result const?, lvalue? *)
  Context (is_il : nat → bool).                          (* std::initializer_list<V> for which the enable_if holds *)

  (** implicit conversion sequence: rank, class bound to, and the reference
      (None: by value) *)
  Inductive rank := Exact | Base | User.
  Record ics := Ics { i_rank : rank; i_ty : nat; i_ref : option (bool * bool) }.

  (** can a reference ([c]: to const, [l]: lvalue reference) be bound to an
      object (const [ec], lvalue [el]) of that class or a derived one *)
  Definition binds (c l ec el : bool) : bool := implb ec c && (if l then el || c else negb el).
  Definition conv (p : param) (e : expr) : option ics :=
    match p with
    | PFwd => Some (Ics Exact (e_ty e) (Some (e_const e, e_lv e)))
    | PRef => if e_lv e || e_const e then Some (Ics Exact (e_ty e) (Some (e_const e, true))) else None
    | PCRef => Some (Ics Exact (e_ty e) (Some (true, true)))
    | PIList => if is_il (e_ty e) then Some (Ics Exact (e_ty e) None) else None
    | PFix t c l =>
        if decide (e_ty e = t) then if binds c l (e_const e) (e_lv e) then Some (Ics Exact t (Some (c, l))) else None
        else if derives (e_ty e) t then if binds c l (e_const e) (e_lv e) then Some (Ics Base t (Some (c, l))) else None
        else match ucv (e_ty e) t with
             | Some (rc, rl) => if binds c l rc rl then Some (Ics User t (Some (c, l))) else None
             | None => None
             end
    end.
  Definition rank_lt (r r' : rank) : bool := match r, r' with Exact, Base | Exact, User | Base, User => true | _, _ => false end.
  (** both bind a reference to the same object: an rvalue reference is better,
      then a less const one *)
  Definition ref_better (r r' : option (bool * bool)) : bool :=
    match r, r' with
    | Some (c, l), Some (c', l') => if l then l' && negb c && c' else l' || negb c && c'
    | _, _ => false
    end.
  Definition better_ics (i j : ics) : bool :=
    rank_lt (i_rank i) (i_rank j) ||
    negb (rank_lt (i_rank j) (i_rank i)) &&
    (if decide (i_ty i = i_ty j) then ref_better (i_ref i) (i_ref j)
     else match i_rank i with Base => derives (i_ty i) (i_ty j) | _ => false end).

  Definition viable (args : list expr) (c : cand) : bool :=
    bool_decide (length (params c (length args)) = length args) &&
    forallb (λ p, match conv p.1 p.2 with Some _ => true | None => false end) (zip (params c (length args)) args).
  Definition arg_better (c d : cand) (args : list expr) (i : nat) : bool :=
    match params c (length args) !! i, params d (length args) !! i, args !! i with
    | Some p, Some q, Some e => match conv p e, conv q e with Some x, Some y => better_ics x y | _, _ => false end
    | _, _, _ => false
    end.
  (** partial ordering of function templates: is [p] at least as specialized
      as [q]; (&&?, const?) of a deduced parameter *)
  Definition shape (p : param) : option (bool * bool) :=
    match p with PFwd => Some (true, false) | PRef => Some (false, false) | PCRef => Some (false, true) | _ => None end.
  Definition at_least (p q : param) : bool :=
    match shape p, shape q with
    | Some (rr, c), Some (rr', c') => negb (rr && negb rr') && negb (negb c && c')
    | None, Some _ => true
    | Some _, None => false
    | None, None => bool_decide (p = q)
    end.
  Definition more_special (c d : cand) (n : nat) : bool :=
    let ps := params c n in let qs := params d n in
    forallb (λ p, at_least p.1 p.2) (zip ps qs) && negb (forallb (λ p, at_least p.2 p.1) (zip ps qs)).
  (** [over.match.best] *)
  Definition better (c d : cand) (args : list expr) : bool :=
    let is := seq 0 (length args) in
    forallb (λ i, negb (arg_better d c args i)) is &&
    (existsb (arg_better c d args) is ||
     negb (c_tmpl c) && c_tmpl d ||
     c_tmpl c && c_tmpl d && more_special c d (length args)).
  Definition wins (cs : list cand) (args : list expr) (c : cand) : bool :=
    viable args c && forallb (λ d, bool_decide (d = c) || negb (viable args d) || better c d args) cs.
  (** the function called; None: no viable function, or ambiguity *)
  Definition select (cs : list cand) (args : list expr) : option cand := head (filter (λ c, wins cs args c = true) cs).
End language.

(** ** Perfect forwarding
    [Variadic]: perfect_fwd.hpp 80-87; [Rvalue n]: rvalue references but no
    variadic templates, pp_perfect_fwd.hpp 20-46, 139-170, dyn_perfect_fwd.hpp
    27-47; [Cxx03 n]: pp_perfect_fwd.hpp 52-135, 139-170, dyn_perfect_fwd.hpp
    64-111.
    [n]: BOOST_FLYWEIGHT_LIMIT_PERFECT_FWD_ARGS. *)
Inductive mode := Variadic | Rvalue (n : nat) | Cxx03 (n : nat).
Definition rvalues (m : mode) : bool := match m with Cxx03 _ => false | _ => true end.
Definition limit (m : mode) (n : nat) : Prop := match m with Variadic => True | Rvalue k | Cxx03 k => n ≤ k end.
Definition tmpl (ps : list param) : cand := Cand AForward true true false ps.
(** BOOST_PP_SEQ_FOR_EACH_PRODUCT over ((0)(1))^n; pp_perfect_fwd.hpp spells it out *)
Fixpoint masks (n : nat) : list (list param) :=
  match n with 0 => [[]] | S n => map (cons PRef) (masks n) ++ map (cons PCRef) (masks n) end.
Definition fwd_with_args (m : mode) : list cand :=
  match m with
  | Variadic => [Cand AForward true true true []]
  | Rvalue k => map (λ i, tmpl (replicate i PFwd)) (seq 1 k)
  | Cxx03 k => concat (map (λ i, map tmpl (masks i)) (seq 1 k))
  end.
Definition fwd (m : mode) : list cand :=
  match m with Variadic => fwd_with_args m | _ => Cand AForward false false false [] :: fwd_with_args m end.
(** BOOST_FLYWEIGHT_FORWARD (perfect_fwd.hpp 47-59): the arguments passed on by the body *)
Definition passed (p : param) (e : expr) : expr :=
  match p with
  | PFwd => e                                               (* std::forward<T>(t) *)
  | PRef => Expr (e_ty e) (e_const e) true                  (* t *)
  | PCRef => Expr (e_ty e) true true
  | PFix t c _ => Expr t c true
  | PIList => Expr (e_ty e) false true
  end.
Definition pass (c : cand) (args : list expr) : list expr := zip_with passed (params c (length args)) args.

(** ** The functions of /repo *)
Section functions.
  Context (derives : nat → nat → bool) (ucv : nat → nat → option (bool * bool)) (is_il : nat → bool).
  Context (m : mode).
  Context (fw value rep : nat).          (* flyweight, value_type, rep_type *)
  Notation select := (select derives ucv is_il).

  Definition fixed (a : action) (t : nat) (c lref : bool) : cand := Cand a false false false [PFix t c lref].
  Definition if_rvalues (cs : list cand) : list cand := if rvalues m then cs else [].
  (** flyweight.hpp 193-219 *)
  Definition ctors : list cand :=
    Cand ADefault false false false [] ::                                              (* 193 *)
    fwd_with_args m ++                                                                 (* 198-200 *)
    if_rvalues [Cand AIList true false false [PIList]] ++                              (* 205-210; C++03 has no initializer_list *)
    [fixed ACopy fw true true; fixed ACopy fw false true] ++                           (* 213-214 *)
    if_rvalues [fixed ACopy fw true false; fixed ACopy fw false false].                (* 217-218 *)
  (** flyweight.hpp 221-238 *)
  Definition assigns : list cand :=
    if_rvalues [Cand AIList true false false [PIList]] ++
    [fixed ACopy fw true true; fixed (AValue true true) value true true] ++
    if_rvalues [fixed (AValue false false) value false false].
  (** flyweight_core.hpp 172-184 *)
  Definition inserts : list cand :=
    fwd m ++ [fixed (AValue true true) value true true; fixed (AValue false true) value false true] ++
    if_rvalues [fixed (AValue true false) value true false; fixed (AValue false false) value false false].
  (** 276, 302 *)
  Definition insert_values : list cand :=
    fixed (AValue true true) value true true :: if_rvalues [fixed (AValue false false) value false false].
  (** default_value_policy.hpp 53-63; key_value.hpp 67-95, 219-231 *)
  Inductive policy := PDefault | PVariant | PProduct.
  Context (pol : policy).
  Definition reps : list cand :=
    fwd m ++ fixed ARep rep true true :: if_rvalues [fixed ARep rep false false] ++
    match pol with
    | PDefault => []
    | _ => fixed (AValue true true) value true true :: if_rvalues [fixed (AValue false false) value false false]
    end.

  (** what creating a flyweight comes to:
      [RCopy]: the handle is copied, nothing else happens
      [RKey args]: the key (the value, if it is its own key) is constructed
        from [args], and the value, if it is not there yet, from the key
      [RValue moved]: the key is extracted from the value passed, and the value,
        if it is not there yet, copied or moved
      [RIll]: ill-formed *)
  Inductive result := RCopy | RKey (args : list expr) | RValue (moved : bool) | RIll.
  (** the argument of the body of a function with parameter [c] value_type&[&],
      as it is passed on: std::move(x) at flyweight_core.hpp 183,
      flyweight.hpp 237, else x *)
  Definition on (c lref : bool) : expr := Expr value c (c || lref).
  (** rep_type(args) *)
  Definition make_rep (args : list expr) : result :=
    match select reps args with
    | Some c =>
        match c_act c, pol with
        | AForward, _ => RKey (pass c args)
        | AValue _ lref, PVariant => RValue false
        | AValue _ _, _ => RIll                               (* key_value.hpp 226, 230, 254-262 *)
        | _, _ => RIll
        end
    | None => RIll
    end.
  (** insert_value 276-289, 302-311 *)
  Definition insert_value (e : expr) : result :=
    match select insert_values [e] with
    | Some c =>
        match c_act c with
        | AValue cst lref =>
            match make_rep [on cst lref] with
            | RValue _ => RValue (negb lref)                  (* copy_construct_value / move_construct_value *)
            | r => r
            end
        | _ => RIll
        end
    | None => RIll
    end.
  Definition insert (args : list expr) : result :=
    match select inserts args with
    | Some c =>
        match c_act c with
        | AForward => make_rep (pass c args)                  (* 169 *)
        | AValue cst lref => insert_value (on cst lref)       (* 178-183 *)
        | _ => RIll
        end
    | None => RIll
    end.
  Definition construct (args : list expr) : result :=
    match select ctors args with
    | Some c =>
        match c_act c with
        | ACopy => RCopy
        | ADefault => insert []
        | AForward | AIList => insert (pass c args)
        | _ => RIll
        end
    | None => RIll
    end.
  (** x = e *)
  Definition assign (e : expr) : result :=
    match select assigns [e] with
    | Some c =>
        match c_act c with
        | ACopy => RCopy
        | AIList => construct (pass c [e])                    (* 227, then line 231 on the temporary *)
        | AValue cst lref => construct [on cst lref]          (* 232, 237 *)
        | _ => RIll
        end
    | None => RIll
    end.
  (** flyweight x = e for e not of class flyweight, or passing e where a
      flyweight is expected: only constructors that are not explicit *)
  Definition implicit (e : expr) : option cand := select (filter (λ c, c_explicit c = false) ctors) [e].
End functions.
