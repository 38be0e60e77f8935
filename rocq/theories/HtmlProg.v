(** The program /repo/example/html.cpp (E/ below) with its flyweights: tags,
    contexts and characters. *)
From Coq Require Import Ascii.
From Verif Require Import SerializeProofs Policies Instances.
From Verif Require Export Vectors Html.

(** html_tag_data (E/ 35-39), html_context_data (E/ 134) and character_data (E/
    140-149).  They are kept apart by their labels, as if they were one value
    type; the flyweights in them are compared and hashed by address. *)
Inductive H := HTag (t : tag) | HCtx | HChr (c : ascii).
Global Instance H_eq_dec : EqDecision H.
Proof. solve_decision. Defined.
Definition hkey : Type := H * list addr.
Definition hmk (l : H) (ks : list addr) : option hkey :=
  match l, ks with HTag _, [] | HCtx, _ | HChr _, [_] => Some (l, ks) | _, _ => None end.
Definition heqk (k k' : hkey) : bool := bool_decide (k.1 = k'.1) && bool_decide (k.2 = k'.2).
Definition hP : policy hkey H hkey hkey := default_policy hmk snd.

Section Prog.
  Context {O : Type} (nm : nat → var) (grows : nat → growth).
  Notation prog := (prog (A:=H) (L:=H) (O:=O)).
  Definition tag_in (l : H) : tag := match l with HTag t => t | _ => ([], []) end.
  Definition code_in (l : H) : ascii := match l with HChr c => c | _ => zero end.

  (** ** scan_html (E/ 176-205) *)
  (** 193-200: [rev] are the tags, innermost first, [tail] those already
      passed; the tags kept and those erased *)
  Fixpoint seek (res : var) (rev tail : list var) (k : option (list var * list var) → prog) : prog :=
    match rev with
    | [] => k None
    | x :: rev => Look x [] (λ l _, Look res [] (λ l' _,
        if decide ((tag_in l).1 = (tag_in l').1) then k (Some (reverse rev, x :: tail)) else seek res rev (x :: tail) k))
    end.
  (** 203.  [ctx]: the vector context; [out]: scanned_html; [threw]: an
      exception, after all objects have been destroyed *)
  Definition emit (c : ascii) (ctx out : list var) (m : nat) (go : list var → nat → prog) (threw : prog) : prog :=
    Call (ONew (nm m) HCtx ctx) (λ b : bool,
      if b then
        Call (ONew (nm (S m)) (HChr c) [nm m]) (λ b : bool,
          if b then
            push_back nm grows out (nm (S m)) (S (S m)) (λ out m',
              Call (ODestroy (nm (S m))) (λ _, Call (ODestroy (nm m)) (λ _, go out m')))
              (destroy_all (nm (S m) :: nm m :: ctx ++ out) threw)
          else destroy_all (nm m :: ctx ++ out) threw)
      else destroy_all (ctx ++ out) threw).
  (** [past]: the iterator is dereferenced at the end *)
  Fixpoint scan_p (n : nat) (html : word) (ctx out : list var) (m : nat) (k : list var → nat → prog) (past threw : prog) : prog :=
    match n, html with
    | _, [] => destroy_all ctx (k out m)
    | 0, _ => past
    | S n, c :: rest =>
        if decide (c = "<"%char) then
          match parse_tag rest [] false with
          | Some (ty, t, rest) =>
              Call (ONew (nm m) (HTag t) []) (λ b : bool,                                          (* 120 *)
                if b then
                  match ty with
                  | opening =>                                                                     (* 184-187 *)
                      push_back nm grows ctx (nm m) (S m) (λ ctx m', Call (ODestroy (nm m)) (λ _, scan_p n rest ctx out m' k past threw))
                        (destroy_all (nm m :: ctx ++ out) threw)
                  | closing =>                                                                     (* 188-202 *)
                      seek (nm m) (reverse ctx) [] (λ o,
                        match o with
                        | Some (keep, erased) => destroy_all erased (Call (ODestroy (nm m)) (λ _, scan_p n rest keep out (S m) k past threw))
                        | None => Call (ODestroy (nm m)) (λ _, scan_p n rest ctx out (S m) k past threw)
                        end)
                  end
                else destroy_all (ctx ++ out) threw)
          | None =>
              Call (ONew (nm m) (HTag ([], [])) []) (λ b : bool,                                   (* 78, 105, 127 *)
                if b then
                  Call (ODestroy (nm m)) (λ _,
                    match rest with
                    | [] => past
                    | c :: rest => emit c ctx out (S m) (λ out m, scan_p n rest ctx out m k past threw) threw
                    end)
                else destroy_all (ctx ++ out) threw)
          end
        else emit c ctx out m (λ out m, scan_p n rest ctx out m k past threw) threw
    end.

  (** ** std::reverse (E/ 303-305): swaps the first and the last, and so on *)
  Fixpoint reverse_p (n : nat) (xs : list var) (p : prog) : prog :=
    match n, xs with
    | S n, x :: xs =>
        match last xs with
        | Some y => Call (OSwap x y) (λ _, reverse_p n (take (length xs - 1) xs) p)
        | None => p
        end
    | _, _ => p
    end.

  (** ** change_context (E/ 232-248), between two contexts reached through objects.
      [cs], [os]: the tags to be closed and opened *)
  Fixpoint close_p (a : var) (p : list nat) (js : list nat) (out : word) (k : word → prog) : prog :=
    match js with
    | [] => k out
    | j :: js => Look a (p ++ [j]) (λ l _, close_p a p js (out ++ print_closing (tag_in l)) k)
    end.
  Fixpoint open_p (b : var) (q : list nat) (js : list nat) (out : word) (k : word → prog) : prog :=
    match js with
    | [] => k out
    | j :: js => Look b (q ++ [j]) (λ l _, open_p b q js (out ++ print_opening (tag_in l)) k)
    end.
  (** 243: [d] is what is left of the shorter *)
  Fixpoint skip_p (a : var) (p : list nat) (b : var) (q : list nat) (i d : nat) (k : nat → prog) : prog :=
    match d with
    | 0 => k i
    | S d => Same a (p ++ [i]) b (q ++ [i]) (λ e : bool, if e then skip_p a p b q (S i) d k else k i)
    end.
  Definition change_p (a : var) (p : list nat) (b : var) (q : list nat) (out : word) (k : word → prog) : prog :=
    Look a p (λ _ n, Look b q (λ _ m, skip_p a p b q 0 (n `min` m) (λ i,
      close_p a p (reverse (seq i (n - i))) out (λ out, open_p b q (seq i (m - i)) out k)))).
  (** ** produce_html (E/ 255-267); assigning from a flyweight in a value goes
      through a copy here *)
  Fixpoint produce_p (xs : list var) (ctx : var) (m : nat) (out : word) (k : word → prog) (threw : prog) : prog :=
    match xs with
    | [] =>
        Call (ONew (nm m) HCtx []) (λ b : bool,                                                    (* 266 *)
          if b then change_p ctx [] (nm m) [] out (λ out, Call (ODestroy (nm m)) (λ _, Call (ODestroy ctx) (λ _, k out)))
          else Call (ODestroy ctx) (λ _, threw))
    | x :: xs =>
        let go m out := Look x [] (λ l _, produce_p xs ctx m (out ++ [code_in l]) k threw) in      (* 264 *)
        Same x [0] ctx [] (λ e : bool,                                                             (* 260 *)
          if e then go m out
          else change_p ctx [] x [0] out (λ out,
            Call (OInner (nm m) x [0]) (λ _, Call (OAssign ctx (nm m)) (λ _, Call (ODestroy (nm m)) (λ _, go (S m) out)))))
    end.
End Prog.

(** ** main (E/ 276-321) between reading and writing the files *)
Inductive outcome := Wrote (w : word) | Past | Threw.
Definition main (nm : nat → var) (grows : nat → growth) (html : word) : prog (A:=H) (L:=H) (O:=outcome) :=
  scan_p nm grows (length html) html [] [] 0
    (λ xs m,
      let q := length xs / 4 in
      reverse_p (length xs) (take (3 * q - q) (drop q xs))
        (Call (ONew (nm m) HCtx []) (λ b : bool,                                                   (* 258 *)
          if b then produce_p nm xs (nm m) (S m) [] (λ out, destroy_all xs (Ret (Wrote out))) (destroy_all xs (Ret Threw))
          else destroy_all xs (Ret Threw))))
    (Ret Past) (Ret Threw).
(** scan_html alone *)
Definition scan_main (nm : nat → var) (grows : nat → growth) (html : word) : prog (A:=H) (L:=H) (O:=option (list var)) :=
  scan_p nm grows (length html) html [] [] 0 (λ xs _, Ret (Some xs)) (Ret None) (Ret None).
