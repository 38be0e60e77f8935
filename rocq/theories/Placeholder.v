(** How factory and holder specifiers become factory and holder classes:
    H/detail/is_placeholder_expr.hpp, H/detail/nested_xxx_if_not_ph.hpp,
    H/detail/not_placeholder_expr.hpp, H/{hashed,set,concurrent,
    assoc_container}_factory.hpp with their _fwd.hpp, H/{static,intermodule}_holder.hpp,
    H/detail/flyweight_core.hpp 130-149, 219-222 (H/ = /repo/include/boost/flyweight/).

    Boost.MPL is not part of /repo.  Its lambda facility is taken at its
    documentation: a placeholder expression is a placeholder, or a
    specialization of a class template whose parameters are between one and
    [arity] types one of which is a placeholder expression; apply substitutes
    the arguments in it, innermost first, and replaces each specialization
    formed by its member [type] if there is one; on any other type it calls the
    member template apply.  mpl::_ (unnumbered), bind and protect are left out. *)
From Verif Require Export Prelude.

(** BOOST_MPL_LIMIT_METAFUNCTION_ARITY *)
Definition arity : nat := 5.

(** class templates of the library (and of MPL); [User n]: any other *)
Inductive tmpl :=
| HashedFactoryClass | SetFactoryClass | ConcurrentFactoryClass | AssocFactoryClass | StaticHolderClass | IntermoduleHolderClass
| HashedFactory | SetFactory | ConcurrentFactory | AssocFactory | StaticHolder | IntermoduleHolder
| PhHelper | CheckParams | Na | Int
| StdSet | StdLess | StdEqual | StdAlloc | BoostHash | RefcountedEntry | User (n : nat).
Global Instance tmpl_eq : EqDecision tmpl.
Proof. solve_decision. Defined.

(** [Ph n]: mpl::_1 for n = 0, ...; [Tpl f v ts]: class template [f] with type
    arguments [ts], and a further parameter int if [v]; a class that is not a
    template is [Tpl f false []]. *)
Inductive ty := Ph (n : nat) | Tpl (f : tmpl) (v : bool) (ts : list ty).
Fixpoint ty_eqb (t u : ty) {struct t} : bool :=
  match t, u with
  | Ph n, Ph m => bool_decide (n = m)
  | Tpl f v ts, Tpl g w us =>
      bool_decide (f = g) && Bool.eqb v w &&
      (fix go (ts us : list ty) : bool :=
         match ts, us with [], [] => true | t :: ts, u :: us => ty_eqb t u && go ts us | _, _ => false end) ts us
  | _, _ => false
  end.

Definition na : ty := Tpl Na false [].
Definition int : ty := Tpl Int false [].

Section mpl.
  (** [ignores_int]: compilers that take a template with a further parameter
      int=0 for a template with type parameters only (not_placeholder_expr.hpp
      32-46) *)
  Context (ignores_int : bool).
  (** member [type], members iterator and value_type, member template apply of
      user classes *)
  Context (user_type : ty → option ty) (iterator value_type : ty → option ty) (user_apply : ty → list ty → option ty).

  (** does lambda look at the arguments *)
  Definition seen (v : bool) (n : nat) : bool := (negb v || ignores_int) && bool_decide (1 ≤ n ≤ arity).
  Fixpoint is_lambda (t : ty) : bool :=
    match t with Ph _ => true | Tpl _ v ts => seen v (length ts) && existsb is_lambda ts end.

  (** hashed_factory.hpp 97, set_factory.hpp 54, assoc_container_factory.hpp
      91, static_holder.hpp 37, intermodule_holder.hpp 35: typedef
      ... type; concurrent_factory_class has none *)
  Definition nested_type (t : ty) : option ty :=
    match t with
    | Tpl (HashedFactoryClass | SetFactoryClass | AssocFactoryClass | StaticHolderClass | IntermoduleHolderClass) _ _ => Some t
    | Tpl (User _) _ _ => user_type t
    | _ => None
    end.
  Fixpoint all_some {X} (l : list (option X)) : option (list X) :=
    match l with [] => Some [] | o :: l => match o, all_some l with Some x, Some xs => Some (x :: xs) | _, _ => None end end.
  (** substitution; an argument that is missing is mpl::na, a static assertion *)
  Fixpoint eval (args : list ty) (t : ty) : option ty :=
    match t with
    | Ph n => args !! n
    | Tpl f v ts =>
        if is_lambda t then
          match all_some (map (eval args) ts) with
          | Some us => let r := Tpl f v us in Some (default r (nested_type r))
          | None => None
          end
        else Some t
    end.
  (** mpl::apply of something whose member apply is the user's *)
  Definition apply0 (t : ty) (args : list ty) : option ty := if is_lambda t then eval args t else user_apply t args.

  (** BOOST_FLYWEIGHT_NOT_A_PLACEHOLDER_EXPRESSION: 51-60 *)
  Definition guarded (f : tmpl) (ts : list ty) : ty :=
    if ignores_int then Tpl f false (ts ++ replicate arity int) else Tpl f true ts.
  Definition hashed_factory (h p a : ty) : ty := guarded HashedFactory [h; p; a].
  Definition concurrent_factory (h p a : ty) : ty := guarded ConcurrentFactory [h; p; a].
  Definition set_factory (c a : ty) : ty := guarded SetFactory [c; a].
  Definition assoc_factory (c : ty) : ty := guarded AssocFactory [c].
  Definition static_holder : ty := Tpl StaticHolder false [].
  Definition intermodule_holder : ty := Tpl IntermoduleHolder false [].

  (** the member templates apply *)
  Definition member_apply (t : ty) (args : list ty) : option ty :=
    match t, args with
    | Tpl HashedFactory _ (h :: p :: a :: _), [e; k] => eval [e; k] (Tpl HashedFactoryClass false [Ph 0; Ph 1; h; p; a])      (* hashed_factory.hpp 110-118 *)
    | Tpl ConcurrentFactory _ (h :: p :: a :: _), [e; k] => eval [e; k] (Tpl ConcurrentFactoryClass false [Ph 0; Ph 1; h; p; a])  (* concurrent_factory.hpp 233-241 *)
    | Tpl SetFactory _ (c :: a :: _), [e; k] => eval [e; k] (Tpl SetFactoryClass false [Ph 0; Ph 1; c; a])                     (* set_factory.hpp 67-75 *)
    | Tpl AssocFactory _ (c :: _), [e; k] =>                                                                                   (* assoc_container_factory.hpp 103-109 *)
        match apply0 c [e; k] with Some c => Some (Tpl AssocFactoryClass false [c]) | None => None end
    | Tpl StaticHolder _ _, [c] => Some (Tpl StaticHolderClass false [c])                                                      (* static_holder.hpp 45-49 *)
    | Tpl IntermoduleHolder _ _, [c] => Some (Tpl IntermoduleHolderClass false [c])                                            (* intermodule_holder.hpp 43-47 *)
    | Tpl PhHelper _ _, _ => Some int                                                                                          (* is_placeholder_expr.hpp 36-42 *)
    | Tpl (User _) _ _, _ => user_apply t args
    | _, _ => None
    end.
  (** mpl::apply, apply1, apply2 *)
  Definition apply (t : ty) (args : list ty) : option ty := if is_lambda t then eval args t else member_apply t args.

  (** is_placeholder_expr.hpp 47-57; None: does not compile *)
  Definition is_placeholder_expression (t : ty) : option bool :=
    match apply (Tpl PhHelper false [t]) (replicate arity int) with
    | Some r => Some (negb (ty_eqb r int))
    | None => None
    end.
  (** nested_xxx_if_not_ph.hpp 23-37 for a member [m] *)
  Definition nested_if_not_placeholder (m : ty → option ty) (t : ty) : option ty :=
    match is_placeholder_expression t with
    | Some true => Some int
    | Some false => m t
    | None => None
    end.

  (** ** What instantiating a factory class makes of its arguments *)

  (** handle type, entry type and type of member cont *)
  Record factory := Factory { f_handle : ty; f_entry : ty; f_cont : ty }.
  (** assoc_container_factory.hpp 52-57, 83-88 *)
  Definition assoc_members (c : ty) : option factory :=
    match nested_if_not_placeholder iterator c, nested_if_not_placeholder value_type c, is_placeholder_expression c with
    | Some h, Some e, Some b => Some (Factory h e (if b then int else c))
    | _, _, _ => None
    end.
  (** concurrent_factory.hpp 182-186, 200-210: false: the empty base *)
  Definition concurrent_members (e k h p a : ty) : option bool :=
    match is_placeholder_expression (Tpl CheckParams false [e; k; h; p; a]) with
    | Some b => Some (negb b)
    | None => None
    end.
  (** the argument, or the default if it is mpl::na *)
  Definition or_default (d t : ty) : ty := if ty_eqb t na then d else t.
  Definition hash_of (k : ty) : ty := Tpl BoostHash false [k].
  Definition equal_of (k : ty) : ty := Tpl StdEqual false [k].
  Definition less_of (k : ty) : ty := Tpl StdLess false [k].
  Definition alloc_of (e : ty) : ty := Tpl StdAlloc false [e].
  (** members of the containers of the three factory classes: element type,
      hash or comparison, predicate, allocator *)
  Record container := Container { c_elem : ty; c_fun : ty; c_pred : option ty; c_alloc : ty }.
  Definition container_of (t : ty) : option container :=
    match t with
    | Tpl HashedFactoryClass false [e; k; h; p; a] =>                                   (* hashed_factory.hpp 43-69 *)
        Some (Container e (or_default (hash_of k) h) (Some (or_default (equal_of k) p)) (or_default (alloc_of e) a))
    | Tpl ConcurrentFactoryClass false [e; k; h; p; a] =>                               (* concurrent_factory.hpp 92-111 *)
        match concurrent_members e k h p a with
        | Some true => let r := Tpl RefcountedEntry false [e] in
                       Some (Container r (or_default (hash_of k) h) (Some (or_default (equal_of k) p)) (or_default (alloc_of r) a))
        | _ => None
        end
    | Tpl SetFactoryClass false [e; k; c; a] =>                                         (* set_factory.hpp 36-51 *)
        let s := Tpl StdSet false [e; or_default (less_of k) c; or_default (alloc_of e) a] in
        match assoc_members s with
        | Some f => if ty_eqb (f_cont f) s
                    then Some (Container e (or_default (less_of k) c) None (or_default (alloc_of e) a))
                    else None
        | None => None
        end
    | _ => None
    end.
End mpl.
