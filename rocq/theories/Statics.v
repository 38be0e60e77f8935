(** Static data of flyweight classes from program start to program exit:
    H/detail/flyweight_core.hpp 153-163, 203-222, 314-351, H/static_holder.hpp
    28-39, H/flyweight.hpp 181-189 (H/ = /repo/include/boost/flyweight/).

    One thread, one module (several threads: [StaticsRace.v]; several modules:
    [Modules.v]).  There are any number of flyweight classes ("cores"), each
    with its own static_initializer, static_factory_ptr, static_mutex_ptr and
    holder.  A program is any sequence of operations; dynamic initializations
    of static_initializer ([OStatic]) and of the user's static objects ([OReg]
    once their construction is complete) come in any order and may be nested
    in each other and in creations of flyweights.

    A flyweight is a number [f]; [core f] is its class, [kids f] are the
    flyweights held by its value, [tracked c]: class [c] is refcounted (else
    no_tracking).  Simplified: the factory keeps one entry per [f], the value
    itself is not modelled; constructors of holders do not throw. *)
From Verif Require Export Prelude.

Inductive status := Raw | Alive | Dead.
(** functions registered for program exit: the local static of
    static_holder_class::get, the destructor of static object [o] *)
Inductive dtor := DHolder (c : nat) | DObj (o : nat).
Inductive op :=
| OInit (c : nat)              (* flyweight::init(), constructor of flyweight::initializer *)
| OStatic (c : nat)            (* dynamic initialization of static_initializer *)
| OMake (f o : nat)            (* create flyweight [f] to be held by object [o] *)
| ODrop (o f : nat)            (* destroy one of the flyweights [f] held by [o] *)
| OUse (o f : nat)             (* access the value of flyweight [f] held by [o] *)
| OReg (o : nat)               (* construction of static object [o] complete *)
| OInsert (f o : nat)          (* internal: insert_rep, insert_value *)
| ORelease (f : nat).          (* internal: destructor of a handle *)
Global Instance status_eq : EqDecision status.
Proof. solve_decision. Defined.
Global Instance dtor_eq : EqDecision dtor.
Proof. solve_decision. Defined.

Record state := State {
  flag : nat → bool;                    (* static_initializer *)
  ptr : nat → bool;                     (* static_factory_ptr, static_mutex_ptr set *)
  hold : nat → status;                  (* holder_arg *)
  made : nat → nat;                     (* ghost: constructions of holder_arg *)
  ents : gmap nat (nat * list nat);     (* entries of the factories: count, flyweights in the value *)
  owns : list (nat * nat);              (* object, flyweight it holds; object 0: values under construction *)
  stack : list dtor;                    (* functions registered for exit, last first *)
  todo : list op;
  exiting : bool;
}.
Inductive res := Next (s : state) | Stuck | Undef.

Definition upd {A} (g : nat → A) (c : nat) (x : A) : nat → A := λ c', if decide (c' = c) then x else g c'.
Definition start : state := State (λ _, false) (λ _, false) (λ _, Raw) (λ _, 0) ∅ [] [] [] false.   (* 331-351 constant initialization *)

Definition set_todo (k : list op) (s : state) : state := State (flag s) (ptr s) (hold s) (made s) (ents s) (owns s) (stack s) k (exiting s).
Definition set_ents (e : gmap nat (nat * list nat)) (s : state) : state := State (flag s) (ptr s) (hold s) (made s) e (owns s) (stack s) (todo s) (exiting s).
Definition set_owns (w : list (nat * nat)) (s : state) : state := State (flag s) (ptr s) (hold s) (made s) (ents s) w (stack s) (todo s) (exiting s).
Definition set_stack (k : list dtor) (s : state) : state := State (flag s) (ptr s) (hold s) (made s) (ents s) (owns s) k (todo s) (exiting s).
Definition set_flag (c : nat) (b : bool) (s : state) : state := State (upd (flag s) c b) (ptr s) (hold s) (made s) (ents s) (owns s) (stack s) (todo s) (exiting s).
Definition set_ptr (c : nat) (b : bool) (s : state) : state := State (flag s) (upd (ptr s) c b) (hold s) (made s) (ents s) (owns s) (stack s) (todo s) (exiting s).
Definition set_hold (c : nat) (x : status) (s : state) : state := State (flag s) (ptr s) (upd (hold s) c x) (made s) (ents s) (owns s) (stack s) (todo s) (exiting s).

(** static_holder.hpp 31-35: the object is constructed, and its destruction
    registered, the first time control passes *)
Definition get (c : nat) (s : state) : state :=
  if decide (hold s c = Raw)
  then State (flag s) (ptr s) (upd (hold s) c Alive) (upd (made s) c (S (made s c))) (ents s) (owns s) (DHolder c :: stack s) (todo s) (exiting s)
  else s.
(** 153-163 *)
Definition init (c : nat) (s : state) : state :=
  if flag s c then s                                                        (* 155 *)
  else let s := get c s in                                                  (* 157 *)
       let s := set_ptr c true s in                                         (* 158, 159 *)
       set_flag c (ptr s c) s.                                              (* 160 *)
(** 203-211: what *static_factory_ptr and *static_mutex_ptr refer to exists *)
Definition ready (s : state) (c : nat) : bool := ptr s c && bool_decide (hold s c = Alive).

Definition user (x : op) : bool :=
  match x with
  | OInsert _ _ | ORelease _ => false
  | OMake _ o | ODrop o _ | OUse o _ | OReg o => negb (bool_decide (o = 0))
  | _ => true
  end.

Section machine.
  Context (core : nat → nat) (tracked : nat → bool) (kids : nat → list nat).

  Definition look (s : state) (f : nat) : bool := ready s (core f) && bool_decide (is_Some (ents s !! f)).

  (** the next operation; it is not in [todo s] any more *)
  Definition exec (x : op) (s : state) : res :=
    match x with
    | OInit c => Next (init c s)
    | OStatic c => let s := init c s in Next (set_flag c (flag s c) s)       (* 323-329 *)
    | OMake f o =>                                                          (* the key, with its own flyweights, comes first *)
        Next (set_todo (map (λ g, OMake g 0) (kids f) ++ OInsert f o :: todo s) s)
    | OInsert f o =>
        let s := init (core f) s in                                         (* 263, 278, 294, 304 *)
        if negb (ready s (core f)) then Undef else                          (* 265 mutex(), 269 factory() *)
        match ents s !! f with
        | Some (n, ks) =>                                                   (* found; the key constructed is destroyed *)
            Next (set_todo (map (ODrop 0) (kids f) ++ todo s) (set_owns ((o, f) :: owns s) (set_ents (<[f:=(S n, ks)]> (ents s)) s)))
        | None =>
            match list_remove_list (map (pair 0) (kids f)) (owns s) with
            | Some w => Next (set_owns ((o, f) :: w) (set_ents (<[f:=(1, kids f)]> (ents s)) s))
            | None => Stuck
            end
        end
    | ODrop o f =>
        match list_remove (o, f) (owns s) with
        | Some w => Next (set_todo (ORelease f :: todo s) (set_owns w s))
        | None => Stuck
        end
    | ORelease f =>
        if negb (tracked (core f)) then Next s                              (* no_tracking: handles are just pointers *)
        else if negb (ready s (core f)) then Undef                          (* 62-65 entry(), 72-73 mutex(), factory() *)
        else match ents s !! f with
             | None => Undef
             | Some (n, ks) =>
                 if decide (n = 1)
                 then let s := init (core f) s in                           (* 71 *)
                      Next (set_todo (map ORelease ks ++ todo s) (set_ents (delete f (ents s)) s))
                 else Next (set_ents (<[f:=(n - 1, ks)]> (ents s)) s)
             end
    | OUse o f => if bool_decide ((o, f) ∈ owns s) then if look s f then Next s else Undef else Stuck
    | OReg o => if bool_decide (DObj o ∈ stack s) then Stuck else Next (set_stack (DObj o :: stack s) s)
    end.

  (** program exit calls the registered functions, last first *)
  Definition pop (s : state) : res :=
    match stack s with
    | [] => Stuck
    | DObj o :: k =>                                                        (* the destructor uses and releases all [o] holds *)
        let xs := snd <$> filter (λ p, p.1 = o) (owns s) in
        if forallb (look s) xs
        then Next (set_todo (map ORelease xs) (set_owns (filter (λ p, p.1 ≠ o) (owns s)) (set_stack k s)))
        else Undef
    | DHolder c :: k =>                                                     (* 214-218 ~holder_arg *)
        let gone := filter (λ e : nat * (nat * list nat), core e.1 = c) (ents s) in
        Next (set_todo (map ORelease (concat ((λ e, e.2.2) <$> map_to_list gone)))
               (set_ents (filter (λ e : nat * (nat * list nat), core e.1 ≠ c) (ents s)) (set_hold c Dead (set_stack k s))))
    end.

  (** the program performs [x] (also within the construction of another
      flyweight or object) | it goes on | exit | next registered function *)
  Inductive label := LOp (x : op) | LStep | LExit | LPop.
  Definition step (s : state) (l : label) : res :=
    match l with
    | LOp x => if exiting s then Stuck else if user x then Next (set_todo (x :: todo s) s) else Stuck
    | LStep => match todo s with [] => Stuck | x :: k => exec x (set_todo k s) end
    | LExit =>
        match todo s with
        | [] => if exiting s then Stuck else Next (State (flag s) (ptr s) (hold s) (made s) (ents s) (owns s) (stack s) [] true)
        | _ => Stuck
        end
    | LPop => match todo s with [] => if exiting s then pop s else Stuck | _ => Stuck end
    end.
  Fixpoint run (s : state) (ls : list label) : res :=
    match ls with
    | [] => Next s
    | l :: ls => match step s l with Next s' => run s' ls | Stuck => run s ls | Undef => Undef end
    end.
End machine.
