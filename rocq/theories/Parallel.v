(** /repo/example/parallel.cpp (E/ below): the tokenizer, the division of the
    text among threads, and the program with its flyweights.  Not modelled: the
    clock, the output, and reading the file. *)
From Coq Require Import Ascii.
From Verif Require Import SerializeProofs Policies Instances.
From Verif Require Export Team Vectors.

Notation word := (list ascii).

(** match (E/ 26-29) *)
Definition letter (c : ascii) : bool := let n := nat_of_ascii c in ((97 <=? n) && (n <=? 122)) || ((65 <=? n) && (n <=? 90)).

(** tokenize (E/ 31-54): iterators are positions in the text.  [word]: the
    position begin_word when in the loop of lines 46-52.  [None]: it reads past the
    end of the text.  [fuel] bounds the number of increments. *)
Fixpoint tok (fuel : nat) (txt : word) (first last : nat) (bw : option nat) : option (list (nat * nat)) :=
  match fuel with
  | 0 => None
  | S fuel =>
      if first =? last then Some (match bw with Some b => [(b, first)] | None => [] end)      (* 41; 47-49 *)
      else match txt !! first with
           | None => None
           | Some c =>
               match bw, letter c with
               | None, true => tok fuel txt (S first) last (Some first)                        (* 42, 45, 47 *)
               | None, false => tok fuel txt (S first) last None                               (* 38 *)
               | Some b, true => tok fuel txt (S first) last (Some b)                          (* 47 *)
               | Some b, false => match tok fuel txt (S first) last None with Some l => Some ((b, first) :: l) | None => None end  (* 48, 50, 38 *)
               end
           end
  end.
Definition tokenize (txt : word) (first last : nat) : option (list (nat * nat)) := tok (S (length txt)) txt first last None.

(** E/ 72-79.  [boundaries txt k pos]: those after [pos] when [k] threads are
    left. *)
Fixpoint past_word (fuel : nat) (txt : word) (it : nat) : nat :=                               (* 78 *)
  match fuel with
  | 0 => it
  | S fuel => match txt !! it with Some c => if letter c then past_word fuel txt (S it) else it | None => it end
  end.
Fixpoint boundaries (txt : word) (k pos : nat) : list nat :=
  match k with
  | 0 => []
  | S k' => let it := past_word (length txt) txt (pos + (length txt - pos) / k) in it :: boundaries txt k' it      (* 76-77 *)
  end.
(** E/ 83-94: what each of [n] threads finds; E/ 99-103: where it starts to write *)
Fixpoint tokens_of (txt : word) (pos : nat) (bs : list nat) : option (list (list (nat * nat))) :=
  match bs with
  | [] => Some []
  | b :: bs => match tokenize txt pos b, tokens_of txt b bs with Some l, Some ls => Some (l :: ls) | _, _ => None end
  end.
Definition chunks (txt : word) (n : nat) : option (list (list (nat * nat))) := tokens_of txt 0 (boundaries txt n 0).
Fixpoint output_starts (num_words : nat) (partial_num_words : list nat) : list nat :=
  match partial_num_words with [] => [] | k :: ks => num_words :: output_starts (num_words + k) ks end.
(** String(first,last) *)
Definition text_at (txt : word) (be : nat * nat) : word := take (be.2 - be.1) (drop be.1 txt).

(** ** The program *)
Definition wkey : Type := word * list addr.
Definition wmk (a : word) (ks : list addr) : option wkey := Some (a, ks).
Definition weqk (k k' : wkey) : bool := bool_decide (k.1 = k'.1) && bool_decide (k.2 = k'.2).
(** regular_flyweight (E/ 134) *)
Definition wP : policy wkey word wkey wkey := default_policy wmk snd.

Section Program.
  (** the elements of the vector, and the temporaries of each thread *)
  Context (slot : nat → var) (tmp : tid → var).
  Notation prog := (prog (A:=word) (L:=word) (O:=bool)).
  Notation team := (gmap tid (bool * prog)).
  (** E/ 107.  [room]: whether the memory for the vector can be had *)
  Fixpoint copies (x : var) (j k : nat) (p : prog) : prog :=
    match k with 0 => p | S k => Call (OCopy (slot j) x) (λ _, copies x (S j) k p) end.
  Definition make_words (u : tid) (room : bool) (num_words : nat) : prog :=
    Call (ONew (tmp u) [] []) (λ b, if b then
      if room then copies (tmp u) 0 num_words (Call (ODestroy (tmp u)) (λ _, Ret true)) else Call (ODestroy (tmp u)) (λ _, Ret false)
    else Ret false).
  (** E/ 110-117; an exception in a thread is the end of the process *)
  Fixpoint fill (u : tid) (out : nat) (ws : list word) : prog :=
    match ws with
    | [] => Ret true
    | w :: ws => Call (ONew (tmp u) w []) (λ b, if b then
        Call (OAssign (slot out) (tmp u)) (λ _, Call (ODestroy (tmp u)) (λ _, fill u (S out) ws))                 (* 115 *)
      else Ret false)
    end.
  (** the destructor of the vector *)
  Definition drop_words (num_words : nat) : prog := destroy_all (slot <$> seq 0 num_words) (Ret true).

  (** main thread [u], others [us], one for each chunk *)
  Definition team_of (u : tid) (p : prog) (qs : list (tid * prog)) : team := <[u:=(false, p)]> (list_to_map (prod_map id (pair false) <$> qs)).
  Definition idle (us : list tid) : list (tid * prog) := (λ v, (v, Ret true)) <$> us.
  Definition fillers (txt : word) (us : list tid) (css : list (list (nat * nat))) : list (tid * prog) :=
    (λ z, (z.1.1, fill z.1.1 z.1.2 (text_at txt <$> z.2))) <$> zip (zip us (output_starts 0 (length <$> css))) css.
  Definition stage1 u us room (css : list (list (nat * nat))) : team := team_of u (make_words u room (length (concat css))) (idle us).
  Definition stage2 txt u us css : team := team_of u (Ret true) (fillers txt us css).
  Definition stage3 u us (css : list (list (nat * nat))) : team := team_of u (drop_words (length (concat css))) (idle us).
End Program.
