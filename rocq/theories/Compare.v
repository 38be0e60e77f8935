(** Comparison, hash and stream operators of flyweights
    (/repo/include/boost/flyweight/flyweight.hpp).

    [fw_addr] is boost::addressof(x.get()), [fw_val] is x.get(). *)
From Verif Require Export CoreSpec.

Record fw (V : Type) := Fw { fw_addr : addr; fw_val : V }.
Global Arguments Fw {_} _ _.
Global Arguments fw_addr {_} _.
Global Arguments fw_val {_} _.

(** x.get() of a live flyweight variable (249, flyweight_core.hpp 186-194) *)
Definition fly {K A R V} (P : policy K A R V) {FS : factory K} (s : state (K:=K) (A:=A) (R:=R) FS) (x : var) :
  option (fw V) :=
  match value_of s x with
  | Some (h, r) => match p_val P r with Some v => Some (Fw h v) | None => None end
  | None => None
  end.

(** 467-486 (std::hash), 496-506 (boost::hash_value): hash of the address;
    [ph] is the hash function on pointers *)
Definition fly_hash {V} (ph : addr → nat) (x : fw V) : nat := ph (fw_addr x).

Inductive cmp := Eq | Ne | Lt | Gt | Le | Ge.

(** Operators for two operands of the same flyweight type.  == and != are
    the friends of lines 257-274; the rest are the templates of lines
    294-403. *)
Definition cmp_same {V} (eq lt : V → V → bool) (c : cmp) (x y : fw V) : bool :=
  let op_eq x y := bool_decide (fw_addr x = fw_addr y) in      (* 267 *)
  let op_lt x y := lt (fw_val x) (fw_val y) in                 (* 313 *)
  match c with
  | Eq => op_eq x y
  | Ne => negb (op_eq x y)                                     (* 273 *)
  | Lt => op_lt x y
  | Gt => op_lt y x                                            (* 370 *)
  | Ge => negb (op_lt x y)                                     (* 376 *)
  | Le => negb (op_lt y x)                                     (* 382 *)
  end.

(** Operands of which at least one is a flyweight, not both of the same
    flyweight type: 294-355 and the rest by lines 360-415.  [eq12], [lt12],
    [lt21] are the user's operators on the underlying types. *)
Inductive operand (V : Type) := Fly (x : fw V) | Plain (v : V).
Global Arguments Fly {_} _.
Global Arguments Plain {_} _.
Definition get {V} (x : operand V) : V := match x with Fly x => fw_val x | Plain v => v end.

Section Mixed.
  Context {V1 V2 : Type} (eq12 : V1 → V2 → bool) (lt12 : V1 → V2 → bool) (lt21 : V2 → V1 → bool).
  (** == : 294-303, 317-335 *)
  Definition op_eq12 (x : operand V1) (y : operand V2) : bool :=
    match x, y with
    | Fly x, Fly y => eq12 (fw_val x) (fw_val y)
    | Fly x, Plain y => eq12 (fw_val x) y
    | Plain x, Fly y => eq12 x (fw_val y)
    | Plain x, Plain y => eq12 x y
    end.
  (** < : 305-314, 337-355 *)
  Definition op_lt12 (x : operand V1) (y : operand V2) : bool :=
    match x, y with
    | Fly x, Fly y => lt12 (fw_val x) (fw_val y)
    | Fly x, Plain y => lt12 (fw_val x) y
    | Plain x, Fly y => lt12 x (fw_val y)
    | Plain x, Plain y => lt12 x y
    end.
  Definition op_lt21 (y : operand V2) (x : operand V1) : bool :=
    match y, x with
    | Fly y, Fly x => lt21 (fw_val y) (fw_val x)
    | Fly y, Plain x => lt21 (fw_val y) x
    | Plain y, Fly x => lt21 y (fw_val x)
    | Plain y, Plain x => lt21 y x
    end.
  (** 360-383 *)
  Definition cmp_mixed (c : cmp) (x : operand V1) (y : operand V2) : bool :=
    match c with
    | Eq => op_eq12 x y
    | Ne => negb (op_eq12 x y)
    | Lt => op_lt12 x y
    | Gt => op_lt21 y x
    | Ge => negb (op_lt12 x y)
    | Le => negb (op_lt21 y x)
    end.

  (** Specification: the operator set derived from == and < of the values. *)
  Definition cmp_values (c : cmp) (x : V1) (y : V2) : bool :=
    match c with
    | Eq => eq12 x y
    | Ne => negb (eq12 x y)
    | Lt => lt12 x y
    | Gt => lt21 y x
    | Ge => negb (lt12 x y)
    | Le => negb (lt21 y x)
    end.
End Mixed.

(** Assignment from constructor arguments / a value (232-239):
    [x = flyweight(args)], i.e. construction of a temporary, assignment,
    destruction of the temporary.  [cs1 cs2 cs3] resolve the machine's
    choices.  Result: final state and whether it completed without
    exception. *)
Section AssignValue.
  Context {K A R V : Type}.
  Context (P : policy K A R V) (FS : factory K) (cfg : config).
  Notation state := (state (K:=K) (A:=A) (R:=R) FS).

  Definition api_call (s : state) (t : tid) (o : op (A:=A)) (cs : list choice) : option state :=
    match step P FS cfg s (LStart t o) with
    | Next s1 =>
        match run P FS cfg s1 (map (LRun t) cs) with
        | Next s2 => match stack s2 t with [] => Some s2 | _ => None end
        | _ => None
        end
    | _ => None
    end.

  Definition assign_from (s : state) (t : tid) (x tmp : var) (p : A) (ys : list var)
      (cs1 cs2 cs3 : list choice) : option (state * bool) :=
    match api_call s t (ONew tmp p ys) cs1 with
    | None => None
    | Some s1 =>
        match vars s1 !! tmp with
        | None => Some (s1, false)                       (* exception *)
        | Some _ =>
            match api_call s1 t (OAssign x tmp) cs2 with
            | None => None
            | Some s2 =>
                match api_call s2 t (ODestroy tmp) cs3 with
                | None => None
                | Some s3 => Some (s3, true)
                end
            end
        end
    end.

  (** operator>> (439-457): [rd st v] is [in>>t] for a [t] holding [v]: new
      stream state and new contents of [t], whatever they are (also when
      reading fails).  [arg] makes constructor arguments of a value. *)
  Definition stream_in {S : Type} (rd : S → V → S * V) (arg : V → A) (st : S)
      (s : state) (t : tid) (x tmp : var) (cs1 cs2 cs3 : list choice) : option (state * bool * S) :=
    match fly P s x with
    | None => None
    | Some f =>
        let (st', v) := rd st (fw_val f) in
        match assign_from s t x tmp (arg v) [] cs1 cs2 cs3 with
        | Some (s', b) => Some (s', b, st')
        | None => None
        end
    end.

  (** operator<< (427-437) *)
  Definition stream_out {S : Type} (wr : S → V → S) (st : S) (s : state) (x : var) : option S :=
    match fly P s x with Some f => Some (wr st (fw_val f)) | None => None end.
End AssignValue.
