(** The text processing of /repo/example/html.cpp (E/ below), with plain values in
    place of flyweights. *)
From Coq Require Import Ascii.
From stdpp Require Export prelude.
From Verif Require Import Prelude.

Notation word := (list ascii).
(** html_tag_data (E/ 35-39): name and properties *)
Notation tag := (word * word)%type.
Inductive tag_type := opening | closing.

(** std::string::find_first_of, find_first_not_of and substr; [None]: npos *)
Fixpoint find_from (f : ascii → bool) (s : word) (i : nat) : option nat :=
  match s with
  | [] => None
  | c :: s =>
      match i with
      | 0 => if f c then Some 0 else S <$> find_from f s 0
      | S i => S <$> find_from f s i
      end
  end.
Definition substr (s : word) (b : nat) (e : option nat) : word := match e with Some e => take (e - b) (drop b s) | None => drop b s end.
Definition tab := ascii_of_nat 9. Definition nl := ascii_of_nat 10. Definition cr := ascii_of_nat 13. Definition dquote := ascii_of_nat 34.
Definition blank (c : ascii) : bool := bool_decide (c = tab ∨ c = nl ∨ c = cr ∨ c = " "%char).
Definition visible (c : ascii) : bool := negb (blank c).
(** std::tolower in the "C" locale *)
Definition lower (c : ascii) : ascii := let n := nat_of_ascii c in if (65 <=? n) && (n <=? 90) then ascii_of_nat (n + 32) else c.

(** E/ 95-120; [None]: failure *)
Definition tag_of (buf : word) : option (tag_type * tag) :=
  let bname := find_from visible buf 0 in
  let ename := match bname with Some b => find_from blank buf b | None => None end in
  let bprop := match ename with Some e => find_from visible buf e | None => None end in
  match bname with
  | None => None                                                               (* 104-106 *)
  | Some b =>
      let cl := bool_decide (buf !! b = Some "/"%char) in                      (* 107-111 *)
      let b := if cl then S b else b in
      Some (if cl then closing else opening,
            (lower <$> substr buf b ename, match bprop with Some p => substr buf p None | None => [] end))   (* 112-118 *)
  end.
(** parse_tag (E/ 86-128); [buf] as it is after the characters read.  Also
    returns what follows the tag (119). *)
Fixpoint parse_tag (cs buf : word) (in_quote : bool) : option (tag_type * tag * word) :=
  match cs with
  | [] => None                                                                 (* 127 *)
  | c :: cs =>
      if bool_decide (c = ">"%char) && negb in_quote then                      (* 94 *)
        match tag_of buf with Some (ty, t) => Some (ty, t, cs) | None => None end
      else parse_tag cs (buf ++ [c]) (if decide (c = dquote) then negb in_quote else in_quote)     (* 123-124 *)
  end.

(** E/ 193-200: the innermost tag with the name and all in it *)
Definition pop (name : word) (ctx : list tag) : list tag :=
  match list_find (λ t : tag, t.1 = name) (reverse ctx) with
  | Some (i, _) => take (length ctx - S i) ctx
  | None => ctx
  end.

(** character_data (E/ 140-149): code and context.  scan_html (E/ 176-205);
    [None]: the iterator is dereferenced at the end (203).  [n]: at least the length
    of the text. *)
Notation chr := (ascii * list tag)%type.
Fixpoint scan (n : nat) (html : word) (ctx : list tag) : option (list chr) :=
  match n, html with
  | _, [] => Some []
  | 0, _ => None
  | S n, c :: rest =>
      if decide (c = "<"%char) then
        match parse_tag rest [] false with
        | Some (opening, t, rest) => scan n rest (ctx ++ [t])                  (* 184-187 *)
        | Some (closing, t, rest) => scan n rest (pop t.1 ctx)                 (* 188-202 *)
        | None => match rest with [] => None | c :: rest => cons (c, ctx) <$> scan n rest ctx end     (* 203 *)
        end
      else cons (c, ctx) <$> scan n rest ctx
  end.
Definition scan_html (html : word) : option (list chr) := scan (length html) html [].

(** E/ 209-221 *)
Definition inside (t : tag) : word := t.1 ++ match t.2 with [] => [] | p => " "%char :: p end.
Definition print_opening (t : tag) : word := "<"%char :: inside t ++ [">"%char].
Definition print_closing (t : tag) : word := if decide (head t.1 = Some "!"%char) then [] else "<"%char :: "/"%char :: t.1 ++ [">"%char].
(** change_context (E/ 232-248) *)
Fixpoint unshare (from to : list tag) : list tag * list tag :=
  match from, to with
  | f :: from', t :: to' => if decide (f = t) then unshare from' to' else (from, to)
  | _, _ => (from, to)
  end.
Definition change (from to : list tag) : word :=
  let '(f, t) := unshare from to in concat (map print_closing (reverse f)) ++ concat (map print_opening t).
(** produce_html (E/ 255-267) *)
Fixpoint produce (cs : list chr) (ctx : list tag) : word :=
  match cs with
  | [] => change ctx []
  | (c, ctx') :: cs => (if decide (ctx' = ctx) then [] else change ctx ctx') ++ c :: produce cs ctx'
  end.
Definition produce_html (cs : list chr) : word := produce cs [].
(** what main does in between (E/ 303-305) *)
Definition shuffle (cs : list chr) : list chr :=
  let n := length cs in let q := n / 4 in
  take q cs ++ reverse (take (3 * q - q) (drop q cs)) ++ drop (3 * q) cs.
