(** The program /repo/example/custom_factory.cpp (E/ below): verbose_factory_class,
    a factory that says what is inserted and erased, and what it is used for. *)
From Coq Require Import Ascii String.
From Verif Require Import SerializeProofs Policies Instances.
From Verif Require Export Vectors.
From Verif Require Import Factory Parallel.
Open Scope list_scope.

(** ** The factory.  The messages are part of it, last first; that of a hit has
    the address of the element found. *)
Inductive kind := New | Hit | Del.
Global Instance kind_eq : EqDecision kind.
Proof. solve_decision. Defined.
Section Factory.
  Context {K : Type} (FS : factory K).
  Notation msg := (kind * nat * option K)%type.
  Definition verbose : factory K :=
    Factory K (f_cont FS * list msg) (f_empty FS, [])
      (λ c, f_find FS c.1)                                                               (* E/ 54 *)
      (λ c a, (f_hit FS c.1 a, (Hit, a, None) :: c.2))                                   (* E/ 58-60 *)
      (λ c kv a, (f_link FS c.1 kv a, (New, a, kv a) :: c.2))                            (* E/ 55-57 *)
      (λ c kv a, (f_unlink FS c.1 kv a, (Del, a, kv a) :: c.2)).                         (* E/ 64-68 *)
  (** what is written: the messages with their keys *)
  Fixpoint key_at (m : list msg) (a : nat) : option K :=
    match m with
    | [] => None
    | (New, b, k) :: m => if decide (b = a) then k else key_at m a
    | _ :: m => key_at m a
    end.
  Definition key_of_msg (x : msg) (m : list msg) : option K := match x.2 with Some k => Some k | None => key_at m x.1.2 end.
  Fixpoint said (m : list msg) : list (kind * K) :=
    match m with
    | [] => []
    | x :: m => match key_of_msg x m with Some k => (x.1.1, k) :: said m | None => said m end
    end.
End Factory.
Global Arguments verbose {_} _.

(** ** main *)
(** boost::char_separator: all that is between separators (E/ 116) *)
Definition separators : word := list_ascii_of_string (String " " (String "009" (String "010" ".,;:!?'""-"))).
Definition sep (c : ascii) : bool := bool_decide (c ∈ separators).
Fixpoint split (cur txt : word) : list word :=
  match txt with
  | [] => match cur with [] => [] | _ => [cur] end
  | c :: txt => if sep c then match cur with [] => split [] txt | _ => cur :: split [] txt end else split (cur ++ [c]) txt
  end.
Section Program.
  Context (nm : nat → var) (grows : nat → growth).
  Notation prog := (prog (A:=word) (L:=word) (O:=bool)).
  (** E/ 114-121 *)
  Fixpoint collect (ws : list word) (xs : list var) (n : nat) (k : list var → nat → prog) : prog :=
    match ws with
    | [] => k xs n
    | w :: ws => Call (ONew (nm n) w []) (λ b, if b then
        push_back nm grows xs (nm n) (S n) (λ xs n', Call (ODestroy (nm n)) (λ _, collect ws xs n' k)) (destroy_all (nm n :: xs) (Ret false))
      else destroy_all xs (Ret false))
    end.
  Definition main (txt : word) : prog := collect (split [] txt) [] 0 (λ xs _, destroy_all xs (Ret true)).
End Program.
