(** The program /repo/example/serialization.cpp (E/ below): texts are kept as
    archives of a vector of flyweights.  Numbers and strings are written to and
    read from an archive by arbitrary encoders and partial decoders; one that
    fails is an archive that throws. *)
From Coq Require Import Ascii String ZArith.
From Verif Require Import SerializeProofs Policies Instances.
From Verif Require Export Vectors.
From Verif Require Import Parallel Basic Serialize.
Open Scope list_scope.

(** boost::tokenizer with boost::char_separator that keeps all separators
    (E/ 59-63): a token for each, and one for what is between them *)
Definition puncts : word :=
  list_ascii_of_string (String "009" (String "010" (String "013" " !""#$%&'()*+,-./:;<=>?@[\]^_`{|}~"))).
Definition punct (c : ascii) : bool := bool_decide (c ∈ puncts).
Definition some_token (cur : word) : list word := match cur with [] => [] | _ => [cur] end.
Fixpoint tokens (cur txt : word) : list word :=
  match txt with
  | [] => some_token cur
  | c :: txt => if punct c then some_token cur ++ [c] :: tokens [] txt else tokens (cur ++ [c]) txt
  end.

(** how the program ends: main returns; std::exit after a file could not be
    opened (E/ 52, 75, 91, 103), which destroys no local object; with an
    exception (E/ 127-130) *)
Inductive status := Done | Exited | Threw.
Notation files := (gmap word word).
Definition outcome : Type := status * files.

Section Program.
  (** [can]: the files that can be opened for writing *)
  Context (ci : codec nat ascii) (ck : codec word ascii) (can : word → bool).
  (** a file with no name cannot be opened *)
  Definition opened (fs : gmap word word) (a : word) : option word := match a with [] => None | _ => fs !! a end.
  Definition writable (b : word) : bool := match b with [] => false | _ => can b end.

  Context (nm : nat → var) (grows : nat → growth).
  Notation prog := (prog (A:=word) (L:=word) (O:=outcome)).
  Definition leave (xs : list var) (o : outcome) : prog := destroy_all xs (Ret o).
  Definition undefined (n : nat) : prog := Call (ODestroy (nm n)) (λ _, Ret (Threw, ∅)).

  (** E/ 64-67.  [f xs]: an exception while there are the objects [xs] *)
  Fixpoint fill (ws : list word) (xs : list var) (n : nat) (k : list var → nat → prog) (f : list var → prog) : prog :=
    match ws with
    | [] => k xs n
    | w :: ws => Call (ONew (nm n) w []) (λ b, if b then
        push_back nm grows xs (nm n) (S n) (λ xs n', Call (ODestroy (nm n)) (λ _, fill ws xs n' k f)) (f (nm n :: xs))
      else f xs)
    end.
  (** serialization_helper.hpp 61-65: the elements are compared by the address of
      their value, which is what operator== does *)
  Fixpoint locate (x : var) (tab : list var) (i : nat) (k : nat → prog) : prog :=
    match tab with
    | [] => k i
    | z :: tab => Same x [] z [] (λ b, if b then k i else locate x tab (S i) k)
    end.
  (** serialize.hpp 48-63 for each element of the vector; the table of the helper
      (serialization_helper.hpp 44-71) does not move its elements.  [f tab out]: an
      exception *)
  Fixpoint save_all (xs tab : list var) (out : word) (n : nat) (k f : list var → word → nat → prog) : prog :=
    match xs with
    | [] => k tab out n
    | x :: xs => locate x tab 0 (λ i,
        let out := out ++ enc ci i in
        if decide (i = length tab) then
          Look x [] (λ w _, let out := out ++ enc ck w in
            match grows n with
            | Fails => f tab out n
            | _ => Call (OCopy (nm n) x) (λ _, save_all xs (tab ++ [nm n]) out (S n) k f)
            end)
        else save_all xs tab out n k f)
    end.
  (** E/ 36-79 *)
  Definition save_file (a b : word) (fs : files) (n : nat) (k : files → nat → prog) : prog :=
    match opened fs a with
    | None => Ret (Exited, fs)
    | Some txt =>
        fill (tokens [] txt) [] n (λ xs n,
          if writable b then
            save_all xs [] (enc ci (length xs)) n
              (λ tab out n, destroy_all (tab ++ xs) (k (<[b:=out]> fs) n))
              (λ tab out n, leave (tab ++ xs) (Threw, <[b:=out]> fs))
          else Ret (Exited, fs)) (λ xs, leave xs (Threw, fs))
    end.

  (** std::vector::resize of an empty vector *)
  Fixpoint defaults (m : nat) (xs : list var) (n : nat) (k : list var → nat → prog) (f : list var → prog) : prog :=
    match m with
    | 0 => k xs n
    | S m => Call (ONew (nm n) [] []) (λ b, if b then defaults m (xs ++ [nm n]) (S n) k f else f xs)
    end.
  Definition resize (m : nat) (n : nat) (k : list var → nat → prog) (f : list var → prog) : prog :=
    match grows n with Fails => f [] | _ => defaults m [] n k f end.
  (** serialize.hpp 90 *)
  Definition assign_from (x : var) (tab : list var) (i : nat) (n : nat) (k : nat → prog) : prog :=
    match tab !! i with
    | None => undefined n
    | Some z => Call (OCopy (nm n) z) (λ _, Call (OAssign x (nm n)) (λ _, Call (ODestroy (nm n)) (λ _, k (S n))))
    end.
  (** serialize.hpp 70-91 for each element of the vector *)
  Fixpoint load_all (xs tab : list var) (inp : word) (n : nat) (k : list var → nat → prog) (f : list var → prog) : prog :=
    match xs with
    | [] => k tab n
    | x :: xs =>
        match dec ci inp with
        | None => f tab
        | Some (i, inp) =>
            if decide (length tab < i) then f tab
            else if decide (i = length tab) then
              match dec ck inp with
              | None => f tab
              | Some (w, inp) =>
                  Call (ONew (nm n) w []) (λ b, if b then
                    push_back nm grows tab (nm n) (S n) (λ tab n', Call (ODestroy (nm n)) (λ _,
                      assign_from x tab i n' (λ n', load_all xs tab inp n' k f))) (f (nm n :: tab))
                  else f tab)
              end
            else assign_from x tab i n (λ n, load_all xs tab inp n k f)
        end
    end.
  (** E/ 105-107 *)
  Fixpoint write (xs : list var) (out : word) (k : word → prog) : prog :=
    match xs with [] => k out | x :: xs => Look x [] (λ w _, write xs (out ++ w) k) end.
  (** E/ 83-108 *)
  Definition load_file (a b : word) (fs : files) (n : nat) (k : files → nat → prog) : prog :=
    match opened fs a with
    | None => Ret (Exited, fs)
    | Some inp =>
        match dec ci inp with
        | None => Ret (Threw, fs)
        | Some (m, inp) =>
            resize m n (λ xs n,
              load_all xs [] inp n
                (λ tab n, if writable b then write xs [] (λ out, destroy_all (xs ++ tab) (k (<[b:=out]> fs) n)) else Ret (Exited, fs))
                (λ tab, leave (xs ++ tab) (Threw, fs)))
              (λ xs, leave xs (Threw, fs))
        end
    end.
  (** E/ 110-131; the input is a list of lines, and without any more std::getline
      yields nothing *)
  Definition line (ls : list word) : word := match ls with [] => [] | l :: _ => l end.
  Definition next (ls : list word) : list word := match ls with [] => ls | _ :: ls => ls end.
  Definition choice (l : word) : Z := match (Basic.in_int (Basic.Stream l false false)).1 with Some v => v | None => (-1)%Z end.
  Fixpoint main (ls : list word) (fs : files) (n : nat) : prog :=
    match ls with
    | [] | [] :: _ => Ret (Done, fs)
    | l :: ls =>
        if (choice l =? 1)%Z then save_file (line ls) (line (next ls)) fs n (λ fs n, main (next (next ls)) fs n)
        else if (choice l =? 2)%Z then load_file (line ls) (line (next ls)) fs n (λ fs n, main (next (next ls)) fs n)
        else main ls fs n
    end.

  (** ** The same with strings *)
  Fixpoint plain_save (ws tab : list word) (out : word) : word :=
    match ws with
    | [] => out
    | w :: ws =>
        match list_find (w =.) tab with
        | Some (i, _) => plain_save ws tab (out ++ enc ci i)
        | None => plain_save ws (tab ++ [w]) ((out ++ enc ci (length tab)) ++ enc ck w)
        end
    end.
  Fixpoint plain_load (m : nat) (tab : list word) (inp : word) : option (list word) :=
    match m with
    | 0 => Some []
    | S m =>
        match dec ci inp with
        | None => None
        | Some (i, inp) =>
            match tab !! i with
            | Some w => (cons w) <$> plain_load m tab inp
            | None =>
                if decide (i = length tab) then
                  match dec ck inp with Some (w, inp) => (cons w) <$> plain_load m (tab ++ [w]) inp | None => None end
                else None
            end
        end
    end.
  Fixpoint plain_main (ls : list word) (fs : files) : outcome :=
    match ls with
    | [] | [] :: _ => (Done, fs)
    | l :: ls =>
        let a := line ls in let b := line (next ls) in
        if (choice l =? 1)%Z then
          match opened fs a with
          | Some txt => if writable b then plain_main (next (next ls)) (<[b:=plain_save (tokens [] txt) [] (enc ci (length (tokens [] txt)))]> fs)
                        else (Exited, fs)
          | None => (Exited, fs)
          end
        else if (choice l =? 2)%Z then
          match opened fs a with
          | Some inp =>
              match dec ci inp with
              | Some (m, inp) =>
                  match plain_load m [] inp with
                  | Some ws => if writable b then plain_main (next (next ls)) (<[b:=concat ws]> fs) else (Exited, fs)
                  | None => (Threw, fs)
                  end
              | None => (Threw, fs)
              end
          | None => (Exited, fs)
          end
        else plain_main ls fs
    end.
End Program.
