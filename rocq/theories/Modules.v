(** A program made of several dynamically loaded modules: H/static_holder.hpp,
    H/intermodule_holder.hpp, H/detail/flyweight_core.hpp 55-74, 153-163,
    186-211, 314-351, H/refcounted.hpp (H/ = /repo/include/boost/flyweight/).

    One flyweight class, refcounted, instantiated in every module.  The static
    data members of flyweight_core and the local static of static_holder_class
    exist once per module (doc/tutorial/configuration.html 514-590).
    intermodule_singleton (Boost.Interprocess) is taken at its documentation:
    one object per process, created by the first module asking for it and
    destroyed when the last module which has asked is unloaded.

    Any code may be in any module: labels name the module whose code performs
    the operation.  Simplified: one thread, keys are numbers, equivalence is
    equality, a value is its key; addresses are never reused. *)
From Verif Require Export Prelude.

Notation module := nat (only parsing).
Notation slot := nat (only parsing).     (* a place for a flyweight object *)
Notation addr := nat (only parsing).
Inductive label :=
| Init (m : module)                      (* flyweight::init(), or dynamic initialization of static_initializer *)
| Make (m : module) (x : slot) (k : nat)
| Copy (m : module) (x y : slot)         (* construct [y] from [x] *)
| Drop (m : module) (x : slot)
| Read (m : module) (x : slot)
| Unload (m : module).                   (* static objects of the module are destroyed *)

(** an entry: key, count of refcounted_value *)
Record cell := Cell { c_key : nat; c_count : nat }.
Record state := State {
  ptr : gmap module nat;                 (* static_factory_ptr where set; it is set together with static_initializer *)
  tbl : gmap nat (gmap nat addr);        (* existing holders, with the contents of their factories *)
  cells : gmap addr cell;
  fws : gmap slot addr;                  (* handles *)
  reg : option nat;                      (* intermodule_singleton *)
  nexth : nat; nexta : nat;              (* fresh names *)
}.
Inductive res := Next (s : state) | Stuck | Undef.
Definition start : state := State ∅ ∅ ∅ ∅ None 0 0.

Section machine.
  Context (shared : bool).               (* intermodule_holder, else static_holder *)

  (** holder_type::get(), called by module [m] for the first time: static_holder.hpp
      31-35, intermodule_holder.hpp 30-37 *)
  Definition create (s : state) : nat * state :=
    (nexth s, State (ptr s) (<[nexth s:=∅]> (tbl s)) (cells s) (fws s) (if shared then Some (nexth s) else None) (S (nexth s)) (nexta s)).
  Definition get (s : state) : nat * state :=
    match reg s with
    | Some h => if shared then (h, s) else create s
    | None => create s
    end.
  (** flyweight_core.hpp 153-163 *)
  Definition init (m : module) (s : state) : state :=
    match ptr s !! m with
    | Some _ => s
    | None => let '(h, s) := get s in State (<[m:=h]> (ptr s)) (tbl s) (cells s) (fws s) (reg s) (nexth s) (nexta s)
    end.
  Definition set (t : gmap nat (gmap nat addr)) (c : gmap addr cell) (f : gmap slot addr) (s : state) : state :=
    State (ptr s) t c f (reg s) (nexth s) (nexta s).

  (** insert_rep, insert_value 261-311, refcounted handle constructed *)
  Definition make (m : module) (x : slot) (k : nat) (s : state) : res :=
    let s := init m s in
    match ptr s !! m with
    | None => Undef
    | Some h =>
        match tbl s !! h with
        | None => Undef
        | Some t =>
            match t !! k with
            | Some a =>
                match cells s !! a with
                | Some c => Next (set (tbl s) (<[a:=Cell (c_key c) (S (c_count c))]> (cells s)) (<[x:=a]> (fws s)) s)
                | None => Undef
                end
            | None =>
                let a := nexta s in
                Next (State (ptr s) (<[h:=<[k:=a]> t]> (tbl s)) (<[a:=Cell k 1]> (cells s)) (<[x:=a]> (fws s)) (reg s) (nexth s) (S a))
            end
        end
    end.
  (** entry(h), 186-189: factory().entry(h) in the module's own statics, no init() *)
  Definition entry (m : module) (x : slot) (s : state) : option (addr * cell) :=
    match ptr s !! m, fws s !! x with
    | Some h, Some a => match tbl s !! h, cells s !! a with Some _, Some c => Some (a, c) | _, _ => None end
    | _, _ => None
    end.
  Definition copy (m : module) (x y : slot) (s : state) : res :=
    match entry m x s with
    | None => Undef
    | Some (a, c) => Next (set (tbl s) (<[a:=Cell (c_key c) (S (c_count c))]> (cells s)) (<[y:=a]> (fws s)) s)
    end.
  (** refcounted ~handle: release, then 68-74: erase through the module's own factory *)
  Definition drop (m : module) (x : slot) (s : state) : res :=
    match entry m x s with
    | None => Undef
    | Some (a, c) =>
        if decide (c_count c = 1)
        then let s := init m s in
             match ptr s !! m with
             | None => Undef
             | Some h =>
                 match tbl s !! h with
                 | None => Undef
                 | Some t => if decide (t !! c_key c = Some a)
                             then Next (set (<[h:=delete (c_key c) t]> (tbl s)) (delete a (cells s)) (delete x (fws s)) s)
                             else Undef                          (* not an element of this container *)
                 end
             end
        else Next (set (tbl s) (<[a:=Cell (c_key c) (c_count c - 1)]> (cells s)) (delete x (fws s)) s)
    end.
  (** the holder of [m], or the shared one if no other module uses it, is
      destroyed with all its entries *)
  Definition destroy (h : nat) (s : state) : state :=
    let gone := match tbl s !! h with Some t => map_to_list t | None => [] end in
    State (ptr s) (delete h (tbl s)) (foldr (λ p c, delete p.2 c) (cells s) gone) (fws s) None (nexth s) (nexta s).
  Definition unload (m : module) (s : state) : res :=
    match ptr s !! m with
    | None => Next s
    | Some h =>
        let s := State (delete m (ptr s)) (tbl s) (cells s) (fws s) (reg s) (nexth s) (nexta s) in
        Next (if shared && existsb (λ p, bool_decide (p.2 = h)) (map_to_list (ptr s)) then s else destroy h s)
    end.

  Definition step (s : state) (l : label) : res :=
    match l with
    | Init m => Next (init m s)
    | Make m x k => if decide (is_Some (fws s !! x)) then Stuck else make m x k s
    | Copy m x y => if decide (is_Some (fws s !! x) ∧ fws s !! y = None) then copy m x y s else Stuck
    | Drop m x => if decide (is_Some (fws s !! x)) then drop m x s else Stuck
    | Read m x => if decide (is_Some (fws s !! x)) then match entry m x s with Some _ => Next s | None => Undef end else Stuck
    | Unload m => unload m s
    end.
  Fixpoint run (s : state) (ls : list label) : res :=
    match ls with
    | [] => Next s
    | l :: ls => match step s l with Next s' => run s' ls | Stuck => run s ls | Undef => Undef end
    end.
End machine.

(** operator== (flyweight.hpp 257-269) evaluated by module [m]: addresses of
    the values, None if evaluation is undefined *)
Definition eqop (s : state) (m : module) (x y : slot) : option bool :=
  match entry m x s, entry m y s with
  | Some (a, _), Some (b, _) => Some (bool_decide (a = b))
  | _, _ => None
  end.
Definition value (s : state) (m : module) (x : slot) : option nat := (λ p, c_key p.2) <$> entry m x s.
