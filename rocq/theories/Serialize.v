(** Serialization of flyweights (H/ = /repo/include/boost/flyweight/):
    H/serialize.hpp 43-91, H/detail/serialization_helper.hpp 36-86,
    H/detail/archive_constructed.hpp 31-71, on top of the core machine, so
    that other threads may create and destroy flyweights (and the allocator
    reuse addresses) at any moment.

    Archives are sequences of words [W]; [ar<<n], [ar>>n] and the
    serialization of keys are arbitrary encoders / partial decoders (a decoder
    that fails is an archive that throws).  [get_helper<helper>()] yields one
    helper object per archive and type. *)
From Verif Require Export CoreSpec.

Record codec (X W : Type) := Codec { enc : X → list W; dec : list W → option (X * list W) }.
Global Arguments enc {_ _} _ _.
Global Arguments dec {_ _} _ _.

Inductive outcome (S : Type) := Ok (x : S) | Blocked | Bad.
Global Arguments Ok {_} _.
Global Arguments Blocked {_}.
Global Arguments Bad {_}.

Section Serialize.
  Context {K A R V W : Type}.
  Context (P : policy K A R V) (FS : factory K) (cfg : config).
  Context (ci : codec nat W) (ck : codec K W).
  Notation state := (state (R:=R) (K:=K) (A:=A) FS).
  Notation label := (label (A:=A)).
  Implicit Types (s : state).

  Definition core_step s (l : label) : outcome state :=
    match step P FS cfg s l with Next s' => Ok s' | Stuck => Blocked | Undef => Bad end.

  (** API calls that create, overwrite or destroy object [x] *)
  Definition writes (x : var) (l : label) : bool :=
    match l with
    | LStart _ (ONew y _ _) | LStart _ (OCopy y _) | LStart _ (OAssign y _) | LStart _ (ODestroy y) | LStart _ (OInner y _ _) =>
        bool_decide (x = y)
    | LStart _ (OSwap y z) => bool_decide (x = y) || bool_decide (x = z)
    | _ => false
    end.
  Definition starts (t : tid) (l : label) : bool :=
    match l with LStart t' _ => bool_decide (t = t') | LRun _ _ => false end.

  (** ** Saving: serialize.hpp 43-63 *)

  (** save_helper (serialization_helper.hpp 44-71): [sv_tab] are the flyweight
      objects stored in its table; they are ordinary flyweight objects of the
      core machine that nobody else writes to (private, noncopyable).
      [sv_pc = Some (t,x)]: thread [t] is in save() of [x], has written
      "item" and still has to write "key" and push [x]. *)
  Record sstate := SState {
    sv_core : state;
    sv_tab : list var;
    sv_out : list W;
    sv_pc : option (tid * var);
  }.

  (** serialization_helper.hpp 61-65: position of the element whose value has
      the given address, end() otherwise *)
  Fixpoint tab_find s (tab : list var) (h : addr) : nat :=
    match tab with
    | [] => 0
    | z :: tab => if decide (live s z = Some h) then 0 else S (tab_find s tab h)
    end.

  Inductive slabel :=
  | SCore (l : label)            (* anything the program does in between *)
  | SBegin (t : tid) (x : var)   (* save(ar,x): find, ar<<n (57-58) *)
  | SEnd (z : var).              (* ar<<key; push_back (59-62); z: the copy in the table *)

  Definition sstep (S : sstate) (l : slabel) : outcome sstate :=
    match l with
    | SCore l =>
        if existsb (λ z, writes z l) (sv_tab S) ||
           match sv_pc S with Some (t, x) => starts t l || writes x l | None => false end
        then Blocked
        else match core_step (sv_core S) l with
             | Ok s' => Ok (SState s' (sv_tab S) (sv_out S) (sv_pc S))
             | Blocked => Blocked
             | Bad => Bad
             end
    | SBegin t x =>
        match sv_pc S, stack (sv_core S) t, live (sv_core S) x with
        | None, [], Some h =>
            match entry (sv_core S) h with
            | None => Bad                                        (* &x.get() *)
            | Some _ =>
                let n := tab_find (sv_core S) (sv_tab S) h in
                Ok (SState (sv_core S) (sv_tab S) (sv_out S ++ enc ci n)
                      (if decide (n = length (sv_tab S)) then Some (t, x) else None))
            end
        | _, _, _ => Blocked
        end
    | SEnd z =>
        match sv_pc S with
        | Some (t, x) =>
            match live (sv_core S) x with
            | Some h =>
                match entry (sv_core S) h with
                | None => Bad                                    (* x.get_key() *)
                | Some n =>
                    match core_step (sv_core S) (LStart t (OCopy z x)) with
                    | Ok s' => Ok (SState s' (sv_tab S ++ [z]) (sv_out S ++ enc ck (p_key P (n_rep n))) None)
                    | Blocked => Blocked
                    | Bad => Bad
                    end
                end
            | None => Blocked
            end
        | None => Blocked
        end
    end.

  Fixpoint srun (S : sstate) (ls : list slabel) : outcome sstate :=
    match ls with
    | [] => Ok S
    | l :: ls => match sstep S l with Ok S' => srun S' ls | Blocked => srun S ls | Bad => Bad end
    end.

  (** ** Loading: serialize.hpp 65-91 *)

  (** [arg k]: the constructor argument "a key equal to [k]" *)
  Context (arg : K → A).

  (** where thread [t], loading [x], is.  [tmp] is the temporary flyweight
      object of line 88 and, later, that of line 90. *)
  Inductive lpc :=
  | PIdle
  | PKey (t : tid) (x tmp : var) (n : nat)          (* 86: about to construct the key object *)
  | PRead (t : tid) (x tmp : var) (n : nat)         (* key object constructed, about to read it *)
  | PMake (t : tid) (x tmp : var) (n : nat) (k : K) (* 88: flyweight(k.get()) in progress *)
  | PPush (t : tid) (x tmp : var) (n : nat) (k : K) (* 88: about to push_back *)
  | PDrop (t : tid) (x tmp : var) (n : nat)         (* 88: about to destroy the temporary flyweight *)
  | PKill (t : tid) (x tmp : var) (n : nat)         (* 89: about to destroy the key object *)
  | PFail (t : tid) (x tmp : var)                   (* exception: temporary flyweight gone, key object still there *)
  | PCopy (t : tid) (x tmp : var) (n : nat)         (* 90: hlp[n] *)
  | PAssign (t : tid) (x tmp : var) (n : nat)       (* 90: f=... *)
  | PDrop2 (t : tid) (x tmp : var) (n : nat)        (* 90: about to destroy the temporary *)
  | PReturn (t : tid) (x tmp : var) (n : nat).      (* about to return *)

  (** [ld_rets]: outcomes of the loads so far, newest first ([true]: returned,
      [false]: threw).  [ld_made], [ld_gone]: numbers of key objects
      constructed and destroyed. *)
  Record lstate := LState {
    ld_core : state;
    ld_tab : list var;                (* load_helper (serialization_helper.hpp 73-90) *)
    ld_in : list W;
    ld_pc : lpc;
    ld_made : nat;
    ld_gone : nat;
    ld_rets : list (var * bool);
  }.

  Definition pc_thread (pc : lpc) : option tid :=
    match pc with
    | PIdle => None
    | PKey t _ _ _ | PRead t _ _ _ | PMake t _ _ _ _ | PPush t _ _ _ _ | PDrop t _ _ _ | PKill t _ _ _
    | PFail t _ _ | PCopy t _ _ _ | PAssign t _ _ _ | PDrop2 t _ _ _ | PReturn t _ _ _ => Some t
    end.
  (** objects the load in progress relies on *)
  Definition pc_vars (pc : lpc) : list var :=
    match pc with
    | PIdle => []
    | PKey _ x tmp _ | PRead _ x tmp _ | PMake _ x tmp _ _ | PPush _ x tmp _ _ | PDrop _ x tmp _ | PKill _ x tmp _
    | PCopy _ x tmp _ | PAssign _ x tmp _ | PDrop2 _ x tmp _ | PFail _ x tmp | PReturn _ x tmp _ => [x; tmp]
    end.

  Inductive llabel :=
  | LCore (l : label)                            (* anything the program does in between *)
  | LBegin (t : tid) (x tmp : var)               (* load(ar,x): ar>>n and the test of its range *)
  | LNext (thr : bool) (z : var) (junk : list W) (* next action of the load; thr: the next operation that may
                                                    throw does; z: the new element of the table; junk: input
                                                    left over by a failed read *).

  Definition goto (S : lstate) (pc : lpc) : lstate :=
    LState (ld_core S) (ld_tab S) (ld_in S) pc (ld_made S) (ld_gone S) (ld_rets S).
  Definition done (S : lstate) (x : var) (b : bool) : lstate :=
    LState (ld_core S) (ld_tab S) (ld_in S) PIdle (ld_made S) (ld_gone S) ((x, b) :: ld_rets S).
  Definition with_in (S : lstate) i : lstate :=
    LState (ld_core S) (ld_tab S) i (ld_pc S) (ld_made S) (ld_gone S) (ld_rets S).
  Definition made (S : lstate) : lstate :=
    LState (ld_core S) (ld_tab S) (ld_in S) (ld_pc S) (ld_made S + 1) (ld_gone S) (ld_rets S).
  Definition gone (S : lstate) : lstate :=
    LState (ld_core S) (ld_tab S) (ld_in S) (ld_pc S) (ld_made S) (ld_gone S + 1) (ld_rets S).
  Definition with_tab (S : lstate) tab : lstate :=
    LState (ld_core S) tab (ld_in S) (ld_pc S) (ld_made S) (ld_gone S) (ld_rets S).
  (** an API call made by the loading thread *)
  Definition calling (S : lstate) (t : tid) (o : op (A:=A)) (pc : lpc) : outcome lstate :=
    match core_step (ld_core S) (LStart t o) with
    | Ok s' => Ok (LState s' (ld_tab S) (ld_in S) pc (ld_made S) (ld_gone S) (ld_rets S))
    | Blocked => Blocked
    | Bad => Bad
    end.

  Definition lnext (S : lstate) (thr : bool) (z : var) (junk : list W) : outcome lstate :=
    match ld_pc S with
    | PIdle => Blocked
    | PKey t x tmp n =>                            (* archive_constructed.hpp 51: load_construct_data_adl *)
        if thr then Ok (done S x false) else Ok (goto (made S) (PRead t x tmp n))
    | PRead t x tmp n =>                           (* archive_constructed.hpp 52-59 *)
        match (if thr then None else dec ck (ld_in S)) with
        | None => Ok (done (with_in (gone S) junk) x false)
        | Some (k, i) => calling (with_in S i) t (ONew tmp (arg k) []) (PMake t x tmp n k)
        end
    | PMake t x tmp n k =>
        match vars (ld_core S) !! tmp with
        | None => Ok (done (gone S) x false)       (* the construction threw; ~archive_constructed *)
        | Some _ => Ok (goto S (PPush t x tmp n k))
        end
    | PPush t x tmp n k =>
        if thr then calling S t (ODestroy tmp) (PFail t x tmp)
        else match calling S t (OCopy z tmp) (PDrop t x tmp n) with
             | Ok S' => Ok (with_tab S' (ld_tab S ++ [z]))
             | r => r
             end
    | PDrop t x tmp n => calling S t (ODestroy tmp) (PKill t x tmp n)
    | PKill t x tmp n => Ok (goto (gone S) (PCopy t x tmp n))
    | PFail t x tmp => Ok (done (gone S) x false)
    | PCopy t x tmp n =>
        match ld_tab S !! n with
        | None => Bad                              (* t[n] out of range *)
        | Some z => calling S t (OCopy tmp z) (PAssign t x tmp n)
        end
    | PAssign t x tmp n => calling S t (OAssign x tmp) (PDrop2 t x tmp n)
    | PDrop2 t x tmp n => calling S t (ODestroy tmp) (PReturn t x tmp n)
    | PReturn t x tmp n => Ok (done S x true)
    end.

  Definition lstep (S : lstate) (l : llabel) : outcome lstate :=
    match l with
    | LCore l =>
        if existsb (λ z, writes z l) (ld_tab S ++ pc_vars (ld_pc S)) ||
           match pc_thread (ld_pc S) with Some t => starts t l | None => false end
        then Blocked
        else match core_step (ld_core S) l with
             | Ok s' => Ok (LState s' (ld_tab S) (ld_in S) (ld_pc S) (ld_made S) (ld_gone S) (ld_rets S))
             | Blocked => Blocked
             | Bad => Bad
             end
    | LBegin t x tmp =>
        match ld_pc S, stack (ld_core S) t, live (ld_core S) x, vars (ld_core S) !! tmp with
        | PIdle, [], Some _, None =>
            if existsb (λ z, bool_decide (x = z)) (ld_tab S) then Blocked
            else match dec ci (ld_in S) with       (* 80-81 *)
            | None => Ok (done S x false)
            | Some (n, i) =>
                if decide (length (ld_tab S) < n) then Ok (done (with_in S i) x false)   (* 82-84 *)
                else if decide (n = length (ld_tab S)) then Ok (goto (with_in S i) (PKey t x tmp n))
                else Ok (goto (with_in S i) (PCopy t x tmp n))
            end
        | _, _, _, _ => Blocked
        end
    | LNext thr z junk =>
        match pc_thread (ld_pc S) with
        | Some t => match stack (ld_core S) t with [] => lnext S thr z junk | _ => Blocked end
        | None => Blocked
        end
    end.

  Fixpoint lrun (S : lstate) (ls : list llabel) : outcome lstate :=
    match ls with
    | [] => Ok S
    | l :: ls => match lstep S l with Ok S' => lrun S' ls | Blocked => lrun S ls | Bad => Bad end
    end.
End Serialize.

Global Arguments sv_core {_ _ _ _ _} _.
Global Arguments sv_tab {_ _ _ _ _} _.
Global Arguments sv_out {_ _ _ _ _} _.
Global Arguments sv_pc {_ _ _ _ _} _.
Global Arguments ld_core {_ _ _ _ _} _.
Global Arguments ld_tab {_ _ _ _ _} _.
Global Arguments ld_in {_ _ _ _ _} _.
Global Arguments ld_pc {_ _ _ _ _} _.
Global Arguments ld_made {_ _ _ _ _} _.
Global Arguments ld_gone {_ _ _ _ _} _.
Global Arguments ld_rets {_ _ _ _ _} _.
