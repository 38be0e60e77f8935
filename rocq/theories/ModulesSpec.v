(** What a program of several modules has done, from its labels alone. *)
From Verif Require Export Modules.

(** modules which have initialized the class and are still loaded; live
    flyweights with their value and the module they were first created in *)
Record hist := Hist { loaded : gset module; live : gmap slot (nat * module) }.
Definition past (w : hist) (l : label) : hist :=
  match l with
  | Init m => Hist ({[m]} ∪ loaded w) (live w)
  | Make m x k => match live w !! x with Some _ => w | None => Hist ({[m]} ∪ loaded w) (<[x:=(k, m)]> (live w)) end
  | Copy m x y => match live w !! x, live w !! y with Some v, None => Hist (loaded w) (<[y:=v]> (live w)) | _, _ => w end
  | Drop m x => Hist (loaded w) (delete x (live w))
  | Read m x => w
  | Unload m => Hist (loaded w ∖ {[m]}) (live w)
  end.
Definition history (ls : list label) : hist := foldl past (Hist ∅ ∅) ls.

(** modules expected to share a factory *)
Definition together (shared : bool) (m m' : module) : Prop := shared = true ∨ m = m'.
Global Instance together_dec b m m' : Decision (together b m m').
Proof. unfold together. apply _. Defined.

(** a program with several modules is polite if modules deal with existing
    flyweights only after initializing the class, destroy only flyweights of
    modules sharing a factory with them, and are not unloaded while they are
    the last to keep a factory in use *)
Definition polite (shared : bool) (w : hist) (l : label) : Prop :=
  match l with
  | Init _ | Make _ _ _ => True
  | Copy m x _ | Read m x => is_Some (live w !! x) → m ∈ loaded w
  | Drop m x => ∀ k m0, live w !! x = Some (k, m0) → m ∈ loaded w ∧ together shared m m0
  | Unload m => ∀ x k m0, live w !! x = Some (k, m0) → together shared m m0 → ∃ m', m' ∈ loaded w ∧ m' ≠ m ∧ together shared m' m0
  end.
Definition all_polite (shared : bool) (ls : list label) : Prop :=
  ∀ ls1 l ls2, ls = ls1 ++ l :: ls2 → polite shared (history ls1) l.
