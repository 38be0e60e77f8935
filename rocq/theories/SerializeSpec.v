(** Vocabulary in which the serialization properties are stated; not used by
    the model. *)
From Verif Require Export Serialize.

(** ** What an archive of keys should look like: the first key of a class is
    written in full, preceded by the number of classes seen before; later ones
    by the number of their class. *)
Section Canon.
  Context {K : Type} (eqv : K → K → bool).
  Fixpoint class (seen : list K) (k : K) : option nat :=
    match seen with
    | [] => None
    | k' :: seen => if eqv k' k then Some 0 else S <$> class seen k
    end.
  Fixpoint canon (seen ks : list K) : list (nat * option K) :=
    match ks with
    | [] => []
    | k :: ks =>
        match class seen k with
        | Some i => (i, None) :: canon seen ks
        | None => (length seen, Some k) :: canon (seen ++ [k]) ks
        end
    end.
End Canon.

Section Spec.
  Context {K A R V W : Type}.
  Context (P : policy K A R V) (FS : factory K) (cfg : config).
  Context (ci : codec nat W) (ck : codec K W).

  Definition codec_ok {X} (c : codec X W) : Prop := ∀ x rest, dec c (enc c x ++ rest) = Some (x, rest).

  Definition words (it : nat * option K) : list W :=
    enc ci (fst it) ++ match snd it with Some k => enc ck k | None => [] end.
  Definition archive (eqv : K → K → bool) (ks : list K) : list W := concat (map words (canon eqv [] ks)).

  (** keys of the objects saved, in order of the calls of save() *)
  Fixpoint saved (S : sstate (K:=K) (A:=A) (R:=R) (W:=W) FS) (ls : list (slabel (A:=A))) : list K :=
    match ls with
    | [] => []
    | l :: ls =>
        match sstep P FS cfg ci ck S l with
        | Ok S' => match l with SBegin _ x => option_list (key_of P FS (sv_core S) x) | _ => [] end ++ saved S' ls
        | Blocked => saved S ls
        | Bad => []
        end
    end.

  (** keys of the objects loaded, read when load() returns ([None]: it threw),
      in order *)
  Context (arg : K → A).
  Fixpoint loaded (S : lstate (K:=K) (A:=A) (R:=R) (W:=W) FS) (ls : list (llabel (A:=A) (W:=W))) : list (option K) :=
    match ls with
    | [] => []
    | l :: ls =>
        match lstep P FS cfg ci ck arg S l with
        | Ok S' =>
            (if decide (length (ld_rets S') = length (ld_rets S)) then []
             else match ld_rets S' with
                  | (x, true) :: _ => [key_of P FS (ld_core S') x]
                  | _ => [None]
                  end) ++ loaded S' ls
        | Blocked => loaded S ls
        | Bad => []
        end
    end.

  (** reading one item of an archive, [seen] being the keys read before *)
  Definition read (seen : list K) (i : list W) : option (K * list K * list W) :=
    match dec ci i with
    | Some (n, i1) =>
        if decide (n = length seen) then
          match dec ck i1 with Some (k, i2) => Some (k, seen ++ [k], i2) | None => None end
        else match seen !! n with Some k => Some (k, seen, i1) | None => None end
    | None => None
    end.
  Fixpoint reads (seen : list K) (i : list W) (m : nat) : list K :=
    match m with
    | 0 => []
    | S m => match read seen i with Some (k, seen', i') => k :: reads seen' i' m | None => [] end
    end.

  (** schedules covered: with no_locking, one thread *)
  Definition ssched_ok (t0 : tid) (ls : list (slabel (A:=A))) : Prop :=
    lck cfg = false → Forall (λ l, match l with SCore l => label_tid l = t0 | SBegin t _ => t = t0 | SEnd _ => True end) ls.
  Definition lsched_ok (t0 : tid) (ls : list (llabel (A:=A) (W:=W))) : Prop :=
    lck cfg = false → Forall (λ l, match l with LCore l => label_tid l = t0 | LBegin t _ _ => t = t0 | LNext _ _ _ => True end) ls.

  Definition sinit (s : state FS) : sstate (K:=K) (A:=A) (R:=R) (W:=W) FS := SState FS s [] [] None.
  Definition linit (s : state FS) (i : list W) : lstate (K:=K) (A:=A) (R:=R) (W:=W) FS := LState FS s [] i PIdle 0 0 [].
End Spec.
