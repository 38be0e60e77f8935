(** The program /repo/example/key_value.cpp (E/ below). *)
From Coq Require Import Ascii String.
From Verif Require Import SerializeProofs Policies Instances.
From Verif Require Export Vectors.
Open Scope list_scope.

(** texture and texture_flyweight (E/ 21-63): a texture is its file name, loaded
    from the file (26-29) or copied (31-34); key_value with a key extractor
    (key_value.hpp 50-192). *)
Notation texture := (list ascii).
Definition kvarg : Type := kv_arg texture texture.
Definition kvrep : Type := texture + texture.
Definition kvmk (w : texture) (ks : list addr) : option texture := match ks with [] => Some w | _ => None end.
Definition kveq (w w' : texture) : bool := bool_decide (w = w').
Definition kvP : policy texture kvarg kvrep texture := variant_policy kvmk (λ _, []) (λ w, w) (λ w, w).
(** E/ 69-74 *)
Definition filenames : list texture := list_ascii_of_string <$>
  ["grass.texture"; "sand.texture"; "water.texture"; "wood.texture";
   "granite.texture"; "cotton.texture"; "concrete.texture"; "carpet.texture"]%string.
Definition pick (r : nat) : texture := default [] (filenames !! (r mod 8)).

Section Prog.
  Context {O : Type} (nm : nat → var) (grows : nat → growth).
  Notation prog := (prog (A:=kvarg) (L:=texture) (O:=O)).
  (** an object from the argument, appended to [textures] and destroyed *)
  Definition append (a : kvarg) (xs : list var) (n : nat) (k : list var → nat → prog) (threw : prog) : prog :=
    Call (ONew (nm n) a []) (λ b : bool,
      if b then push_back nm grows xs (nm n) (S n) (λ xs m, Call (ODestroy (nm n)) (λ _, k xs m)) (destroy_all (nm n :: xs) threw)
      else destroy_all xs threw).
  (** E/ 81-84; [rs]: the file names *)
  Fixpoint load (rs : list texture) (xs : list var) (n : nat) (k : list var → nat → prog) (threw : prog) : prog :=
    match rs with
    | [] => k xs n
    | w :: rs => append (FromKey w) xs n (λ xs n, load rs xs n k threw) threw
    end.
  (** E/ 90-94; [js]: what std::rand returns.  [undef]: the remainder of a division by 0 *)
  Fixpoint again (js : list nat) (xs : list var) (n : nat) (k : list var → nat → prog) (threw undef : prog) : prog :=
    match js with
    | [] => k xs n
    | j :: js =>
        match xs !! (j mod length xs) with
        | Some x => Look x [] (λ w _, append (FromValue w) xs n (λ xs n, again js xs n k threw undef) threw)
        | None => undef
        end
    end.
  Definition create (rs js : list nat) (k : list var → nat → prog) (threw undef : prog) : prog :=
    load (pick <$> rs) [] 0 (λ xs n, again js xs n k threw undef) threw.
End Prog.

(** E/ 65-99: [Created n] as printed at 96 *)
Inductive outcome := Created (n : nat) | Threw | Undefined.
Definition main (nm : nat → var) (grows : nat → growth) (rs js : list nat) : prog (A:=kvarg) (L:=texture) (O:=outcome) :=
  create nm grows rs js (λ xs _, destroy_all xs (Ret (Created (length xs)))) (Ret Threw) (Ret Undefined).
(** up to 96 *)
Definition made (nm : nat → var) (grows : nat → growth) (rs js : list nat) : prog (A:=kvarg) (L:=texture) (O:=option (list var)) :=
  create nm grows rs js (λ xs _, Ret (Some xs)) (Ret None) (Ret None).

(** ** The textures *)
(** the second loop on a vector of textures; [None]: undefined *)
Fixpoint copies (l : list texture) (js : list nat) : option (list texture) :=
  match js with
  | [] => Some l
  | j :: js => match l !! (j mod length l) with Some w => copies (l ++ [w]) js | None => None end
  end.
