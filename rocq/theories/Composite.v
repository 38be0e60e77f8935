(** The program /repo/example/composite.cpp (E/ below): lists of strings and
    lists, as flyweights. *)
From Coq Require Import Ascii.
From Verif Require Import SerializeProofs Policies Instances.
From Verif Require Export Vectors.

Notation word := (list ascii).
(** list_impl (E/ 37-46): a string, or a list of flyweights; addresses stand for
    the flyweights, which are compared (flyweight.hpp 257-269) and hashed (E/ 56-82)
    by address *)
Definition L : Type := option word.
Definition lkey : Type := L * list addr.
Definition lmk (l : L) (ks : list addr) : option lkey := match l, ks with Some _, _ :: _ => None | _, _ => Some (l, ks) end.
Definition leqk (k k' : lkey) : bool := bool_decide (k.1 = k'.1) && bool_decide (k.2 = k'.2).
Definition lP : policy lkey L lkey lkey := default_policy lmk snd.

(** ** Tokens: boost::tokenizer with char_separator(" ","()") (E/ 155-157): blanks
    are dropped, parentheses kept, empty tokens dropped *)
Inductive token := Open | Close | Word (w : word).
Definition flush (buf : word) (l : list token) : list token := match buf with [] => l | _ => Word (reverse buf) :: l end.
Fixpoint tokenize (buf cs : word) : list token :=
  match cs with
  | [] => flush buf []
  | c :: cs =>
      if decide (c = " "%char) then flush buf (tokenize [] cs)
      else if decide (c = "("%char) then flush buf (Open :: tokenize [] cs)
      else if decide (c = ")"%char) then flush buf (Close :: tokenize [] cs)
      else tokenize (c :: buf) cs
  end.

(** ** The parser (E/ 132-151).  Vectors as in
    [Vectors.v]. *)
Inductive err := UnmatchedClose | UnmatchedOpen | Threw.

Section Parse.
  Context {O : Type} (nm : nat → var) (grows : nat → growth).
  Notation prog := (prog (A:=L) (L:=L) (O:=O)).

  (** [cur]: elms of the innermost call; [fs]: those of the calls around it.  A
      return destroys the elms of the call, an exception those of all of them. *)
  Fixpoint parse (ts : list token) (fs : list (list var)) (cur : list var) (n : nat) (k : var → nat → prog) (e : err → prog) : prog :=
    match ts with
    | [] =>
        match fs with
        | [] => Call (ONew (nm n) None cur) (λ b, destroy_all cur (if b : bool then k (nm n) (S n) else e Threw))      (* 150 *)
        | _ => destroy_all (cur ++ concat fs) (e UnmatchedOpen)                                         (* 149 *)
        end
    | Open :: ts => parse ts (cur :: fs) [] n k e                                                       (* 138-139 *)
    | Close :: ts =>
        match fs with
        | [] => destroy_all cur (e UnmatchedClose)                                                      (* 142 *)
        | up :: fs =>
            Call (ONew (nm n) None cur) (λ b : bool,                                                    (* 143 *)
              if b then
                destroy_all cur
                  (push_back nm grows up (nm n) (S n) (λ up' m, Call (ODestroy (nm n)) (λ _, parse ts fs up' m k e))      (* 139 *)
                     (destroy_all (nm n :: up ++ concat fs) (e Threw)))
              else destroy_all (cur ++ up ++ concat fs) (e Threw))
        end
    | Word w :: ts =>
        Call (ONew (nm n) (Some w) []) (λ b : bool,                                                     (* 146 *)
          if b then
            push_back nm grows cur (nm n) (S n) (λ cur' m, Call (ODestroy (nm n)) (λ _, parse ts fs cur' m k e))
              (destroy_all (nm n :: cur ++ concat fs) (e Threw))
          else destroy_all (cur ++ concat fs) (e Threw))
    end.

  (** ** The printer (E/ 88-128): lines with their indentation.  [d] bounds the
      depth of the recursion, [stuck]: it was too small *)
  Context (stuck : prog).
  Notation line := (nat * token)%type.
  Fixpoint print (d : nat) (x : var) (path : list nat) (nest : nat) (out : list line) (k : list line → prog) : prog :=
    match d with
    | 0 => stuck
    | S d =>
        Look x path (λ l n,
          match l with
          | Some w => k (out ++ [(nest, Word w)])                                                       (* 94-98 *)
          | None =>                                                                                     (* 100-113 *)
              (fix go (js : list nat) (out : list line) : prog :=
                 match js with
                 | [] => k (out ++ [(nest, Close)])
                 | j :: js => print d x (path ++ [j]) (S nest) out (go js)
                 end) (seq 0 n) (out ++ [(nest, Open)])
          end)
    end.
End Parse.

(** main (E/ 161-174) after the line has been read *)
Inductive outcome := Printed (ls : list (nat * token)) | Failed (e : err) | TooDeep.
Definition main (nm : nat → var) (grows : nat → growth) (str : word) : prog (A:=L) (L:=L) (O:=outcome) :=
  let ts := tokenize [] str in
  parse nm grows ts [] [] 0
    (λ x _, print (Ret TooDeep) (S (S (length ts))) x [] 0 [] (λ out, Call (ODestroy x) (λ _, Ret (Printed out))))
    (λ e, Ret (Failed e)).
(** parse_list alone (E/ 153-159) *)
Definition parse_list (nm : nat → var) (grows : nat → growth) (str : word) : prog (A:=L) (L:=L) (O:=var + err) :=
  parse nm grows (tokenize [] str) [] [] 0 (λ x _, Ret (inl x)) (λ e, Ret (inr e)).
