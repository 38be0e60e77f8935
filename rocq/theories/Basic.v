(** The program /repo/example/basic.cpp (E/ below): user entries with flyweights
    for the names, read from a stream, changed, compared, replaced and shown. *)
From Coq Require Import Ascii String ZArith.
From Verif Require Import SerializeProofs Policies Instances.
From Verif Require Export Vectors.
From Verif Require Import Parallel.
Open Scope list_scope.

(** ** std::istringstream: what is left of the text, eofbit and failbit *)
Record stream := Stream { rest : word; eof : bool; fail : bool }.
Definition space (c : ascii) : bool := let n := nat_of_ascii c in (n =? 32) || ((9 <=? n) && (n <=? 13)).
Definition digit (c : ascii) : option Z := let n := nat_of_ascii c in if (48 <=? n) && (n <=? 57) then Some (Z.of_nat n - 48)%Z else None.
Fixpoint skip (w : word) : word := match w with c :: w' => if space c then skip w' else w | [] => [] end.
Fixpoint upto (w : word) : word * word := match w with c :: w' => if space c then ([], w) else let '(a, b) := upto w' in (c :: a, b) | [] => ([], []) end.
Definition ends (w : word) : bool := match w with [] => true | _ => false end.
(** the sentry of formatted input functions: [None] if it fails *)
Definition sentry (st : stream) : option word * stream :=
  if eof st || fail st then (None, Stream (rest st) (eof st) true)
  else match skip (rest st) with [] => (None, Stream [] true true) | w => (Some w, st) end.
(** operator>> for std::string; the string keeps its value if the sentry fails *)
Definition in_string (st : stream) (t : word) : word * stream :=
  match sentry st with
  | (None, st) => (t, st)
  | (Some w, _) => let '(a, b) := upto w in (a, Stream b (ends b) false)
  end.
(** operator>> for int: its new value, if it gets one *)
Fixpoint number (w : word) (v : Z) : Z * bool * word :=
  match w with
  | c :: w' => match digit c with Some d => let '(r, _, w2) := number w' (10 * v + d)%Z in (r, true, w2) | None => (v, false, w) end
  | [] => (v, false, [])
  end.
Definition int_max : Z := 2147483647.
Definition in_int (st : stream) : option Z * stream :=
  match sentry st with
  | (None, st) => (None, st)
  | (Some w, _) =>
      let '(neg, w) := match w with "-"%char :: w => (true, w) | "+"%char :: w => (false, w) | _ => (false, w) end in
      let '(v, some, w) := number w 0 in
      let v := if neg : bool then (- v)%Z else v in
      if negb some then (Some 0%Z, Stream w (ends w) true)
      else if (int_max <? v)%Z then (Some int_max, Stream w (ends w) true)
      else if (v <? - int_max - 1)%Z then (Some (- int_max - 1)%Z, Stream w (ends w) true)
      else (Some v, Stream w (ends w) false)
  end.

Notation person := (word * word * Z)%type.
Definition oleg : word := list_ascii_of_string "oleg".
Definition smith : word := list_ascii_of_string "smith".
Definition first_of_anna : word := list_ascii_of_string "anna".
Definition last_of_anna : word := list_ascii_of_string "jones".

Section Program.
  (** [preds]: how often the predicate of std::replace_if, which has a copy of
      anna, is copied *)
  Context (nm : nat → var) (grows : nat → growth) (preds : nat).
  Notation prog := (prog (A:=word) (L:=word) (O:=option (list person))).
  Notation user := (var * var * Z)%type.
  Definition names (us : list user) : list var := us ≫= λ u, [u.1.1; u.1.2].
  Definition undefined (n : nat) : prog := Call (ODestroy (nm n)) (λ _, Ret None).
  Definition threw (xs : list var) : prog := destroy_all xs (Ret None).
  (** two members made from [f] and [l] (E/ 43-55) *)
  Definition make2 (f l : word) (n : nat) (k : var → var → nat → prog) (g : prog) : prog :=
    Call (ONew (nm n) f []) (λ b, if b then
      Call (ONew (nm (S n)) l []) (λ b, if b then k (nm n) (nm (S n)) (S (S n)) else Call (ODestroy (nm n)) (λ _, g))
    else g).
  (** flyweight.hpp 232-233: x = w *)
  Definition set_to (x : var) (w : word) (n : nat) (k : nat → prog) (g : prog) : prog :=
    Call (ONew (nm n) w []) (λ b, if b then Call (OAssign x (nm n)) (λ _, Call (ODestroy (nm n)) (λ _, k (S n))) else g).
  (** flyweight.hpp 444-459 *)
  Definition read_name (x : var) (st : stream) (n : nat) (k : stream → nat → prog) (g : prog) : prog :=
    Look x [] (λ t _, let '(t', st') := in_string st t in set_to x t' n (k st') g).
  (** E/ 86-89.  The age has no value yet *)
  Definition read_user (x y : var) (st : stream) (n : nat) (k : option Z → stream → nat → prog) (g : prog) : prog :=
    read_name x st n (λ st n, read_name y st n (λ st n, let '(a, st) := in_int st in k a st n) g) g.
  (** E/ 60-64 *)
  Fixpoint copy_users (us : list user) (n : nat) (k : list user → nat → prog) : prog :=
    match us with
    | [] => k [] n
    | (x, y, a) :: us => Call (OCopy (nm n) x) (λ _, Call (OCopy (nm (S n)) y) (λ _, copy_users us (S (S n)) (λ vs, k ((nm n, nm (S n), a) :: vs))))
    end.
  (** std::vector::push_back; user_entry has no move constructor *)
  Definition push_user (us : list user) (u : user) (n : nat) (k : list user → nat → prog) (g : prog) : prog :=
    match grows n with
    | Fits => copy_users [u] n (λ u1 n, k (us ++ u1) n)
    | Moves => copy_users [u] n (λ u1 n, copy_users us n (λ vs n, destroy_all (names us) (k (vs ++ u1) n)))
    | Fails => g
    end.
  (** E/ 136-141 *)
  Fixpoint read_all (fuel : nat) (st : stream) (us : list user) (n : nat) (k : list user → nat → prog) : prog :=
    match fuel with
    | 0 => undefined n
    | S fuel =>
        if fail st then k us n                                                          (* 138 *)
        else make2 [] [] n (λ x y n,                                                    (* 139 *)
          read_user x y st n (λ a st n,                                                 (* 140 *)
            if fail st then destroy_all [x; y] (read_all fuel st us n k)
            else match a with
                 | Some a => push_user us (x, y, a) n (λ us n, destroy_all [x; y] (read_all fuel st us n k)) (threw ([x; y] ++ names us))
                 | None => undefined n                                                  (* the age has no value *)
                 end) (threw ([x; y] ++ names us))) (threw (names us))
    end.
  (** E/ 116-120, 143 *)
  Definition change_first (us : list user) (f l : word) (n : nat) (k : nat → prog) : prog :=
    match us with
    | [] => undefined n
    | (x, y, _) :: _ => set_to x f n (λ n, set_to y l n k (threw (names us))) (threw (names us))
    end.
  (** E/ 70-75; 145-149.  [p]: the copy of anna in the predicate *)
  Fixpoint replace_users (us : list user) (p anna : user) (k : list user → prog) : prog :=
    match us with
    | [] => k []
    | (x, y, a) :: us =>
        let keep := replace_users us p anna (λ vs, k ((x, y, a) :: vs)) in
        Same x [] p.1.1 [] (λ b, if b then
          Same y [] p.1.2 [] (λ b, if b then
            Call (OAssign x anna.1.1) (λ _, Call (OAssign y anna.1.2) (λ _, replace_users us p anna (λ vs, k ((x, y, anna.2) :: vs))))
          else keep)
        else keep)
    end.
  (** E/ 79-82, 151-153 *)
  Fixpoint show_users (us : list user) (k : list person → prog) : prog :=
    match us with
    | [] => k []
    | (x, y, a) :: us => Look x [] (λ f _, Look y [] (λ l _, show_users us (λ out, k ((f, l, a) :: out))))
    end.
  Definition main (txt : word) : prog :=
    read_all (S (S (length txt))) (Stream txt false false) [] 0 (λ us n,
    change_first us oleg smith n (λ n,
    make2 first_of_anna last_of_anna n (λ x y n,
    let anna := (x, y, 20%Z) in
    copy_users (replicate preds anna) n (λ ps n,
    replace_users us (match ps with p :: _ => p | [] => anna end) anna (λ us,
    destroy_all (names ps) (show_users us (λ out, destroy_all ([x; y] ++ names us) (Ret (Some out))))))) (threw (names us)))).
End Program.

(** ** The same with strings; [None]: it is undefined *)
Fixpoint plain_read (fuel : nat) (st : stream) (us : list person) : option (list person) :=
  match fuel with
  | 0 => None
  | S fuel =>
      if fail st then Some us
      else let '(f, st) := in_string st [] in let '(l, st) := in_string st [] in let '(a, st) := in_int st in
        if fail st then plain_read fuel st us
        else match a with Some a => plain_read fuel st (us ++ [(f, l, a)]) | None => None end
  end.
Definition plain_main (txt : word) : option (list person) :=
  match plain_read (S (S (length txt))) (Stream txt false false) [] with
  | Some ((_, _, a) :: us) =>
      Some ((λ u : person, if bool_decide (u.1 = (first_of_anna, last_of_anna)) then (first_of_anna, last_of_anna, 20%Z) else u) <$> (oleg, smith, a) :: us)
  | _ => None
  end.
