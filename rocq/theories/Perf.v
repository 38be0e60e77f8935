(** The program /repo/example/perf.cpp (E/ below): a vector of the tokens of a
    text is filled, copied, searched and read, with strings or flyweights. *)
From Coq Require Import Ascii String ZArith NArith.
From Verif Require Import SerializeProofs Policies Instances.
From Verif Require Export Vectors.
From Verif Require Import Parallel Basic SerText.
Open Scope list_scope.

(** std::size_t *)
Definition wrap (n : N) : N := (n mod 2 ^ 64)%N.
(** String(it->c_str()), E/ 197: up to the first null character *)
Fixpoint c_str (w : word) : word := match w with [] => [] | c :: w => if decide (c = "000"%char) then [] else c :: c_str w end.

(** main returns the sum or the program ends because of an exception (E/ 307), a
    file that cannot be opened (E/ 181), or for lack of input (E/ 292) *)
Inductive end_of := Sum (n : N) | Failed | No_file | No_input.

Section Program.
  Context (nm : nat → var) (grows : nat → growth).
  Notation prog := (prog (A:=word) (L:=word) (O:=end_of)).
  Definition leave (xs : list var) (o : end_of) : prog := destroy_all xs (Ret o).
  Definition undefined (n : nat) : prog := Call (ODestroy (nm n)) (λ _, Ret Failed).
  (** E/ 195-198 *)
  Fixpoint fill (ws : list word) (xs : list var) (n : nat) (k : list var → nat → prog) : prog :=
    match ws with
    | [] => k xs n
    | w :: ws => Call (ONew (nm n) (c_str w) []) (λ b, if b then
        push_back nm grows xs (nm n) (S n) (λ xs n', Call (ODestroy (nm n)) (λ _, fill ws xs n' k)) (leave (nm n :: xs) Failed)
      else leave xs Failed)
    end.
  (** std::vector::insert of the elements [xs] at the end of [ys]; a reallocation
      copies them all *)
  Definition insert_all (ys xs : list var) (n : nat) (k : list var → nat → prog) (f : prog) : prog :=
    match grows n with
    | Fits => copy_all nm xs n (λ zs m, k (ys ++ zs) m)
    | Moves => copy_all nm xs n (λ zs m, copy_all nm ys m (λ ys' m, destroy_all ys (k (ys' ++ zs) m)))
    | Fails => f
    end.
  (** E/ 206-209 *)
  Fixpoint copies (r : nat) (xs ys : list var) (n : nat) (k : list var → nat → prog) : prog :=
    match r with
    | 0 => k ys n
    | S r => insert_all ys xs n (λ ys n, copies r xs ys n k) (leave (ys ++ xs) Failed)
    end.
  (** std::count *)
  Fixpoint count_in (xs : list var) (y : var) (d : N) (k : N → prog) : prog :=
    match xs with [] => k d | x :: xs => Same x [] y [] (λ b, count_in xs y (if b then d + 1 else d)%N k) end.
  (** E/ 217-220; % 0 is undefined *)
  Fixpoint compare (r : nat) (xs : list var) (c : N) (n : nat) (k : N → prog) : prog :=
    match r with
    | 0 => k c
    | S r =>
        match xs !! N.to_nat (c mod N.of_nat (length xs))%N with
        | None => undefined n
        | Some y => count_in xs y 0 (λ d, compare r xs (wrap (c + d)) n k)
        end
    end.
  (** std::accumulate *)
  Fixpoint sum_in (xs : list var) (s : N) (k : N → prog) : prog :=
    match xs with [] => k s | x :: xs => Look x [] (λ w _, sum_in xs (wrap (s + N.of_nat (length w))) k) end.
  (** E/ 228-231 *)
  Fixpoint access (r : nat) (xs : list var) (s : N) (k : N → prog) : prog :=
    match r with 0 => k s | S r => sum_in xs s (λ d, access r xs (wrap (s + d)) k) end.
  (** E/ 166-233; [k]: what follows, with the elements of both vectors *)
  Definition measure (txt : word) (k : list var → N → prog) : prog :=
    fill (tokens [] txt) [] 0 (λ xs n,
      copies 10 xs [] n (λ ys n,
        compare 100 xs 0 n (λ c, access 20 ys 0 (λ s, k (ys ++ xs) (wrap (c + s)))))).
  (** E/ 166-244 *)
  Definition run (txt : word) : prog := measure txt (λ xs n, leave xs (Sum n)).

  (** ** The same with strings *)
  Fixpoint plain_compare (r : nat) (ws : list word) (c : N) : option N :=
    match r with
    | 0 => Some c
    | S r =>
        match ws !! N.to_nat (c mod N.of_nat (length ws))%N with
        | None => None
        | Some w => plain_compare r ws (wrap (c + N.of_nat (length (filter (.= w) ws))))
        end
    end.
  Definition plain_sum (ws : list word) (s : N) : N := foldl (λ s w, wrap (s + N.of_nat (length w))) s ws.
  Fixpoint plain_access (r : nat) (ws : list word) (s : N) : N :=
    match r with 0 => s | S r => plain_access r ws (wrap (s + plain_sum ws s)) end.
  Definition plain_run (txt : word) : option N :=
    let ws := c_str <$> tokens [] txt in
    match plain_compare 100 ws 0 with
    | Some c => Some (wrap (c + plain_access 20 (concat (replicate 10 ws)) 0))
    | None => None
    end.

  (** E/ 281-312: option 1 is for strings and the others for flyweights *)
  Fixpoint main (ls : list word) (fs : files) : prog :=
    match ls with
    | [] | [] :: _ => Ret No_input
    | l :: ls =>
        let o := choice l in
        if ((1 <=? o) && (o <=? 5))%Z then
          match opened fs (line ls) with
          | None => Ret No_file
          | Some txt => if (o =? 1)%Z then match plain_run txt with Some n => Ret (Sum n) | None => undefined 0 end else run txt
          end
        else main ls fs
    end.
End Program.
(** [None]: it is undefined *)
Fixpoint plain_main (ls : list word) (fs : files) : option end_of :=
  match ls with
  | [] | [] :: _ => Some No_input
  | l :: ls =>
      if ((1 <=? choice l) && (choice l <=? 5))%Z then
        match opened fs (line ls) with None => Some No_file | Some txt => Sum <$> plain_run txt end
      else plain_main ls fs
  end.
