(** Value constructors that create flyweights of their own type
    (H/ = /repo/include/boost/flyweight/): H/detail/flyweight_core.hpp 101-117
    (insert_and_visit), 261-300; H/key_value.hpp 136-143 and 264-270
    (key_construct_value); H/refcounted.hpp 108-151, H/no_tracking.hpp;
    example/fibonacci.cpp.  One thread; the mutex of simple_locking is
    recursive and does not matter here (see [Mutex.v]).

    A constructor is a program that creates flyweights, reads their values,
    drops them, and in the end throws or returns a value that keeps copies of
    some of them as members. *)
From Verif Require Export Prelude.

Section Recursive.
  Context {K V : Type}.

  Inductive cprog :=
  | CRet (v : V) (keep : list nat)        (* the value, and which local flyweights are copied into it *)
  | CThrow
  | CNew (k : K) (f : V → cprog)          (* flyweight local(k); f(local.get()) *)
  | CDrop (i : nat) (p : cprog).          (* a local flyweight is destroyed *)

  (** [body n k]: what the [n]-th constructor call of the run does, for key
      [k]; [trk]: refcounted / no_tracking; [eqv]: the factory's key
      equivalence; [kx k v]: the key that the entry has once built (itself
      without extractor, that of the value otherwise). *)
  Context (body : nat → K → cprog) (trk : bool) (eqv : K → K → bool) (kx : K → V → K).

  Record ent := Ent {
    e_key : K;
    e_val : option V;                     (* None: value_cted is false *)
    e_ref : nat;                          (* refcounted_value::ref *)
    e_kids : list nat;                    (* flyweights inside the value *)
  }.
  Record st := St {
    ents : gmap nat ent;                  (* the factory *)
    next : nat;                           (* addresses are not reused *)
    calls : nat;                          (* constructor calls so far *)
    log : list (nat * K);                 (* completed constructions: entry and key asked for *)
  }.
  Definition set_ents (E : gmap nat ent) (s : st) : st := St E (next s) (calls s) (log s).

  Inductive res (X : Type) := Ret (x : X) (s : st) | Thr (s : st) | Undef | Fuel.
  Global Arguments Ret {_} _ _.
  Global Arguments Thr {_} _.
  Global Arguments Undef {_}.
  Global Arguments Fuel {_}.

  Definition find (s : st) (k : K) : option nat :=
    match filter (λ p : nat * ent, eqv (e_key p.2) k = true) (map_to_list (ents s)) with
    | [] => None
    | p :: _ => Some p.1
    end.

  (** refcounted_handle constructors, 112-122 *)
  Definition add_ref (h : nat) (s : st) : option st :=
    match ents s !! h with
    | Some e => Some (set_ents (<[h:=Ent (e_key e) (e_val e) (S (e_ref e)) (e_kids e)]> (ents s)) s)
    | None => None
    end.
  Fixpoint add_refs (l : list nat) (s : st) : option st :=
    match l with
    | [] => Some s
    | h :: l => match add_ref h s with Some s => add_refs l s | None => None end
    end.

  (** ~refcounted_handle, 130-135, for each of [l]; the last one erases the
      entry, which destroys the flyweights in the value.  With no_tracking
      handles have no destructor.  [n] bounds the recursion ([fuel_for]
      suffices, [RecursiveProofs.release_ok]). *)
  Fixpoint release (n : nat) (l : list nat) (s : st) : option st :=
    if trk then
      match n, l with
      | _, [] => Some s
      | 0, _ => None
      | S n, h :: l =>
          match ents s !! h with
          | None => None                  (* dangling *)
          | Some e =>
              match e_ref e with
              | 0 => None                 (* released too often *)
              | 1 => release n (e_kids e ++ l) (set_ents (delete h (ents s)) s)
              | S r => release n l (set_ents (<[h:=Ent (e_key e) (e_val e) r (e_kids e)]> (ents s)) s)
              end
          end
      end
    else Some s.
  Definition fuel_for (l : list nat) (s : st) : nat := length l + msum (λ e, length (e_kids e)) (ents s).
  Definition let_go (l : list nat) (s : st) : option st := release (fuel_for l s) l s.

  (** a constructor call with local flyweights [loc]; [cr] creates flyweights *)
  Fixpoint run_prog (cr : K → st → res nat) (p : cprog) (loc : list nat) (s : st) : res (V * list nat) :=
    match p with
    | CRet v keep =>
        let kids := omap (λ i, loc !! i) keep in
        match (if trk then add_refs kids s else Some s) with
        | None => Undef
        | Some s => match let_go loc s with Some s => Ret (v, kids) s | None => Undef end
        end
    | CThrow => match let_go loc s with Some s => Thr s | None => Undef end
    | CNew k f =>
        match cr k s with
        | Ret h s =>
            match ents s !! h with
            | Some (Ent _ (Some v) _ _) => run_prog cr (f v) (loc ++ [h]) s
            | _ => Undef                  (* get() of a value that is not there *)
            end
        | Thr s => match let_go loc s with Some s => Thr s | None => Undef end
        | Undef => Undef
        | Fuel => Fuel
        end
    | CDrop i p =>
        match loc !! i with
        | Some h => match let_go [h] s with Some s => run_prog cr p (delete i loc) s | None => Undef end
        | None => run_prog cr p loc s
        end
    end.

  (** key_construct_value: the constructor runs in the entry's storage *)
  Definition visit (cr : K → st → res nat) (h : nat) (k : K) (s : st) : res unit :=
    match ents s !! h with
    | None => Undef
    | Some (Ent _ (Some _) _ _) => Ret tt s                               (* if(!value_cted) *)
    | Some (Ent k0 None _ _) =>
        match run_prog cr (body (calls s) k0) [] (St (ents s) (next s) (S (calls s)) (log s)) with
        | Ret (v, kids) s =>
            match ents s !! h with
            | Some (Ent _ None r _) =>
                Ret tt (St (<[h:=Ent (kx k0 v) (Some v) r kids]> (ents s)) (next s) (calls s) ((h, k) :: log s))
            | _ => Undef      (* the storage is gone, or has had its key destroyed and holds another value *)
            end
        | Thr s =>
            (* 111-114: fac.erase(h); rethrow *)
            match ents s !! h with
            | Some (Ent _ None _ _) => Thr (set_ents (delete h (ents s)) s)
            | Some (Ent _ (Some _) _ kids) =>
                match let_go kids (set_ents (delete h (ents s)) s) with Some s => Thr s | None => Undef end
            | None => Undef
            end
        | Undef => Undef
        | Fuel => Fuel
        end
    end.

  Fixpoint create (n : nat) (k : K) (s : st) : res nat :=
    match n with
    | 0 => Fuel
    | S n =>
        let '(h, s) :=
          match find s k with
          | Some h => (h, s)
          | None => (next s, St (<[next s:=Ent k None 0 []]> (ents s)) (S (next s)) (calls s) (log s))
          end in
        match visit (create n) h k s with
        | Ret _ s => if trk then match add_ref h s with Some s => Ret h s | None => Undef end else Ret h s
        | Thr s => Thr s
        | Undef => Undef
        | Fuel => Fuel
        end
    end.

  (** ** The program using the flyweights: named flyweight objects *)
  Inductive uop := UNew (x : nat) (k : K) | UCopy (x y : nat) | UDrop (x : nat).
  Record usr := Usr { t_st : st; t_vars : gmap nat nat }.
  Inductive tres := TNext (t : usr) | TThrow (t : usr) | TUndef | TFuel.

  (** operations on names not in the right state are skipped *)
  Definition ustep (n : nat) (o : uop) (t : usr) : tres :=
    match o with
    | UNew x k =>
        match t_vars t !! x with
        | Some _ => TNext t
        | None => match create n k (t_st t) with
                  | Ret h s => TNext (Usr s (<[x:=h]> (t_vars t)))
                  | Thr s => TThrow (Usr s (t_vars t))
                  | Undef => TUndef
                  | Fuel => TFuel
                  end
        end
    | UCopy x y =>
        match t_vars t !! x, t_vars t !! y with
        | None, Some h => if trk then match add_ref h (t_st t) with Some s => TNext (Usr s (<[x:=h]> (t_vars t))) | None => TUndef end
                          else TNext (Usr (t_st t) (<[x:=h]> (t_vars t)))
        | _, _ => TNext t
        end
    | UDrop x =>
        match t_vars t !! x with
        | Some h => match let_go [h] (t_st t) with Some s => TNext (Usr s (delete x (t_vars t))) | None => TUndef end
        | None => TNext t
        end
    end.
  (** exceptions reach the user, who goes on *)
  Fixpoint urun (n : nat) (l : list uop) (t : usr) : tres :=
    match l with
    | [] => TNext t
    | o :: l => match ustep n o t with TNext t | TThrow t => urun n l t | r => r end
    end.
  Definition u_init : usr := Usr (St ∅ 0 0 []) ∅.
  (** x.get() *)
  Definition u_get (t : usr) (x : nat) : option V := t_vars t !! x ≫= λ h, ents (t_st t) !! h ≫= e_val.
End Recursive.
