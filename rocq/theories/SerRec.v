(** Serialization of flyweights whose keys contain flyweights of the same
    type: H/serialize.hpp 43-91 with the nested calls made by [ar<<key] (58)
    and by archive_constructed (84; H/detail/archive_constructed.hpp 45-58).

    One thread; a flyweight is identified with its (tree shaped) value, which
    is what C02 justifies.  The serialization of a key is: its own data and
    the number of its flyweights, then each flyweight through save/load. *)
From Verif Require Export Prelude.

Section SerRec.
  Context {D : Type} `{EqDecision D}.
  Inductive vtree := T (d : D) (kids : list vtree).
  Inductive tok := Idx (n : nat) | Dat (d : D) (m : nat).

  Fixpoint tree_eqb (a b : vtree) : bool :=
    match a, b with
    | T d ks, T e ls =>
        bool_decide (d = e) &&
        (fix go ks ls := match ks, ls with
                         | [], [] => true
                         | k :: ks, l :: ls => tree_eqb k l && go ks ls
                         | _, _ => false
                         end) ks ls
    end.

  (** save_helper::find (serialization_helper.hpp 61-65) *)
  Fixpoint position (tab : list vtree) (t : vtree) : option nat :=
    match tab with
    | [] => None
    | t' :: tab => if tree_eqb t' t then Some 0 else S <$> position tab t
    end.
  (** save_helper::push_back on a hashed_unique table (67): rejected if there
      already *)
  Definition push (tab : list vtree) (t : vtree) : list vtree :=
    match position tab t with Some _ => tab | None => tab ++ [t] end.

  (** serialize.hpp 57-62: output and new table *)
  Fixpoint save (tab : list vtree) (t : vtree) : list tok * list vtree :=
    match position tab t with
    | Some n => ([Idx n], tab)
    | None =>
        match t with
        | T d ks =>
            let (o, tab1) :=
              (fix go tab ks := match ks with
                                | [] => ([], tab)
                                | k :: ks => let (o1, tab1) := save tab k in
                                             let (o2, tab2) := go tab1 ks in (o1 ++ o2, tab2)
                                end) tab ks in
            (Idx (length tab) :: Dat d (length ks) :: o, push tab1 t)
        end
    end.
  Definition saves : list vtree → list vtree → list tok * list vtree :=
    fix go tab ks := match ks with
                     | [] => ([], tab)
                     | k :: ks => let (o1, tab1) := save tab k in
                                  let (o2, tab2) := go tab1 ks in (o1 ++ o2, tab2)
                     end.

  (** serialize.hpp 80-90.  [pick n m] selects the element assigned at line
      90, [n] being the index read at line 81 and [m] the position at which
      line 88 pushed: the code uses [n]. *)
  Section Load.
    Context (pick : nat → nat → nat).
    Fixpoint load_gen (fuel : nat) (tab : list vtree) (i : list tok) : option (vtree * list vtree * list tok) :=
      match fuel with
      | 0 => None
      | S fuel =>
          match i with
          | Idx n :: i =>
              if decide (length tab < n) then None                          (* 82-84 *)
              else if decide (n = length tab) then
                match i with
                | Dat d m :: i =>
                    match (fix go m tab i :=
                             match m with
                             | 0 => Some ([], tab, i)
                             | S m => match load_gen fuel tab i with
                                      | Some (k, tab1, i1) =>
                                          match go m tab1 i1 with
                                          | Some (ks, tab2, i2) => Some (k :: ks, tab2, i2)
                                          | None => None
                                          end
                                      | None => None
                                      end
                             end) m tab i with
                    | Some (ks, tab1, i1) =>                                 (* 86-90 *)
                        match (tab1 ++ [T d ks]) !! pick n (length tab1) with
                        | Some r => Some (r, tab1 ++ [T d ks], i1)
                        | None => None
                        end
                    | None => None
                    end
                | _ => None
                end
              else match tab !! n with Some t => Some (t, tab, i) | None => None end
          | _ => None
          end
      end.
    Definition loads_gen (fuel : nat) : nat → list vtree → list tok → option (list vtree * list vtree * list tok) :=
      fix go m tab i :=
        match m with
        | 0 => Some ([], tab, i)
        | S m => match load_gen fuel tab i with
                 | Some (k, tab1, i1) =>
                     match go m tab1 i1 with
                     | Some (ks, tab2, i2) => Some (k :: ks, tab2, i2)
                     | None => None
                     end
                 | None => None
                 end
        end.
  End Load.

  Definition load := load_gen (λ n _, n).
  Definition loads := loads_gen (λ n _, n).
  (** the loader with line 90 referring to the element just pushed *)
  Definition load_last := load_gen (λ _ m, m).
  Definition loads_last := loads_gen (λ _ m, m).
End SerRec.
Global Arguments vtree : clear implicits.
Global Arguments tok : clear implicits.
