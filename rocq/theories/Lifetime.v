(** Object lifetimes in the value policies (H/ = /repo/include/boost/flyweight/):
    H/key_value.hpp 50-192 (with extractor) and 194-295 (without),
    H/detail/default_value_policy.hpp 30-76, and the insertion functions of
    H/detail/flyweight_core.hpp 84-118, 167-184, 224-312 in one thread.

    A rep_type object has raw storage for a key object and for a value
    object.  Constructing into occupied storage, destroying or reading what is
    not there, and giving up storage that is occupied are [UB].  Every
    constructor may throw, as decided by a list of choices. *)
From Verif Require Export Prelude.

Section Lifetime.
  Context {K V : Type}.
  (** user supplied: value constructor, key extractor, key equivalence *)
  Context (val : K → V) (ext : V → K) (eqv : K → K → bool).

  (** An object: its identity and its contents ([None]: moved from) *)
  Record rep := Rep { r_key : option (nat * option K); r_val : option (nat * option V); r_cted : bool }.

  Record mem := Mem {
    reps : gmap nat rep;            (* rep_type objects, by address *)
    args : gmap nat (option V);     (* value_type objects of the caller *)
    fac : list nat;                 (* entries of the factory *)
    nrep : nat;                     (* next address *)
    nobj : nat;                     (* next object identity *)
    made : list nat;                (* objects constructed / destroyed so far *)
    gone : list nat;
  }.

  Inductive out (X : Type) := Ret (x : X) (m : mem) (c : list bool) | Thr (m : mem) (c : list bool) | UB.
  Global Arguments Ret {_} _ _ _.
  Global Arguments Thr {_} _ _.
  Global Arguments UB {_}.
  Definition M (X : Type) : Type := mem → list bool → out X.

  Definition ret {X} (x : X) : M X := λ m c, Ret x m c.
  Definition bind {X Y} (p : M X) (f : X → M Y) : M Y := λ m c,
    match p m c with Ret x m' c' => f x m' c' | Thr m' c' => Thr m' c' | UB => UB end.
  Definition ub {X} : M X := λ _ _, UB.
  Definition may_throw : M unit := λ m c,
    match c with b :: c => if b then Thr m c else Ret tt m c | [] => Ret tt m [] end.
  (** [q] does not throw: exceptions in cleanups terminate *)
  Definition on_throw {X} (p : M X) (q : M unit) : M X := λ m c,
    match p m c with
    | Ret x m' c' => Ret x m' c'
    | Thr m' c' => match q m' c' with Ret _ m2 c2 => Thr m2 c2 | _ => UB end
    | UB => UB
    end.
  (** scope: [q] is executed when [p] is left *)
  Definition finally {X} (p : M X) (q : M unit) : M X := λ m c,
    match p m c with
    | Ret x m' c' => match q m' c' with Ret _ m2 c2 => Ret x m2 c2 | _ => UB end
    | Thr m' c' => match q m' c' with Ret _ m2 c2 => Thr m2 c2 | _ => UB end
    | UB => UB
    end.

  Definition set_reps r m := Mem r (args m) (fac m) (nrep m) (nobj m) (made m) (gone m).
  Definition set_args a m := Mem (reps m) a (fac m) (nrep m) (nobj m) (made m) (gone m).
  Definition set_fac f m := Mem (reps m) (args m) f (nrep m) (nobj m) (made m) (gone m).

  Definition get_rep (i : nat) : M rep := λ m c, match reps m !! i with Some r => Ret r m c | None => UB end.
  Definition put_rep (i : nat) (r : rep) : M unit := λ m c, Ret tt (set_reps (<[i:=r]> (reps m)) m) c.

  (** raw storage *)
  Definition alloc : M nat := λ m c,
    Ret (nrep m) (Mem (<[nrep m:=Rep None None false]> (reps m)) (args m) (fac m) (S (nrep m)) (nobj m) (made m) (gone m)) c.
  Definition dealloc (i : nat) : M unit := λ m c,
    match reps m !! i with
    | Some (Rep None None _) => Ret tt (set_reps (delete i (reps m)) m) c
    | _ => UB
    end.
  Definition fresh_obj : M nat := λ m c,
    Ret (nobj m) (Mem (reps m) (args m) (fac m) (nrep m) (S (nobj m)) (nobj m :: made m) (gone m)) c.
  Definition dead (o : nat) : M unit := λ m c,
    Ret tt (Mem (reps m) (args m) (fac m) (nrep m) (nobj m) (made m) (o :: gone m)) c.

  (** placement new / destructor / read of the key and value objects *)
  Definition new_key (i : nat) (x : option K) : M unit :=
    bind (get_rep i) (λ r, match r_key r with
      | Some _ => ub
      | None => bind may_throw (λ _, bind fresh_obj (λ o, put_rep i (Rep (Some (o, x)) (r_val r) (r_cted r))))
      end).
  Definition kill_key (i : nat) : M unit :=
    bind (get_rep i) (λ r, match r_key r with
      | Some (o, _) => bind (dead o) (λ _, put_rep i (Rep None (r_val r) (r_cted r)))
      | None => ub
      end).
  Definition read_key (i : nat) : M (option K) :=
    bind (get_rep i) (λ r, match r_key r with Some (_, x) => ret x | None => ub end).
  (** the source of a move *)
  Definition moved_key (i : nat) : M unit :=
    bind (get_rep i) (λ r, match r_key r with
      | Some (o, _) => put_rep i (Rep (Some (o, None)) (r_val r) (r_cted r))
      | None => ub
      end).
  Definition new_val (i : nat) (x : option V) : M unit :=
    bind (get_rep i) (λ r, match r_val r with
      | Some _ => ub
      | None => bind may_throw (λ _, bind fresh_obj (λ o, put_rep i (Rep (r_key r) (Some (o, x)) (r_cted r))))
      end).
  Definition kill_val (i : nat) : M unit :=
    bind (get_rep i) (λ r, match r_val r with
      | Some (o, _) => bind (dead o) (λ _, put_rep i (Rep (r_key r) None (r_cted r)))
      | None => ub
      end).
  Definition read_val (i : nat) : M (option V) :=
    bind (get_rep i) (λ r, match r_val r with Some (_, x) => ret x | None => ub end).
  Definition cted (i : nat) : M bool := bind (get_rep i) (λ r, ret (r_cted r)).
  Definition set_cted (i : nat) : M unit := bind (get_rep i) (λ r, put_rep i (Rep (r_key r) (r_val r) true)).
  Definition read_arg (a : nat) : M (option V) := λ m c, match args m !! a with Some v => Ret v m c | None => UB end.
  Definition moved_arg (a : nat) : M unit := λ m c, Ret tt (set_args (<[a:=None]> (args m)) m) c.

  (** a constructor: storage, then the body; if it throws the storage is given
      up without running the destructor *)
  Definition construct (body : nat → M unit) : M nat :=
    bind alloc (λ i, bind (on_throw (body i) (dealloc i)) (λ _, ret i)).

  (** how the value of a new entry is made: key_construct_value,
      copy_construct_value(a), move_construct_value(a)
      (flyweight_core.hpp 226-259) *)
  Inductive how := ByKey | ByCopy (a : nat) | ByMove (a : nat).

  (** the operations of a value policy's rep_type *)
  Record pol := Pol {
    c_args : K → M nat;             (* rep_type(args...), args denoting a key *)
    c_copy : nat → M nat;           (* rep_type(const rep_type&) *)
    c_move : nat → M nat;           (* rep_type(rep_type&&) *)
    c_value : bool → nat → M nat;   (* rep_type(const value_type&) / (value_type&&) [true] *)
    dtor : nat → M unit;
    key : nat → M (option K);       (* operator const key_type& *)
    value : nat → M (option V);     (* operator const value_type& *)
    build : how → nat → M unit;
  }.

  (** ** key_value with extractor *)
  Definition variant_copy_body (j i : nat) : M unit :=                    (* 73-77 *)
    bind (cted j) (λ b, if b then bind (read_val j) (λ v, new_key i (ext <$> v))
                        else bind (read_key j) (λ k, new_key i k)).
  Definition variant_move_body (j i : nat) : M unit :=                    (* 85-89 *)
    bind (cted j) (λ b, if b then bind (read_val j) (λ v, new_key i (ext <$> v))
                        else bind (read_key j) (λ k, bind (moved_key j) (λ _, new_key i k))).
  Definition variant_build_with (i : nat) (x : M (option V)) : M unit :=  (* 136-163 *)
    bind (cted i) (λ b, if b then ret tt
      else bind x (λ v, bind (new_val i v) (λ _, bind (kill_key i) (λ _, set_cted i)))).
  Definition variant : pol := Pol
    (λ k, construct (λ i, new_key i (Some k)))                            (* 61-69 *)
    (λ j, construct (variant_copy_body j))
    (λ j, construct (variant_move_body j))
    (λ _ a, construct (λ i, bind (read_arg a) (λ v, new_key i (ext <$> v))))  (* 79-82, 91-94 *)
    (λ i, bind (cted i) (λ b, bind (if b then kill_val i else kill_key i) (λ _, dealloc i)))  (* 97-101 *)
    (λ i, bind (cted i) (λ b, if b then bind (read_val i) (λ v, ret (ext <$> v)) else read_key i))  (* 103-109 *)
    (λ i, bind (cted i) (λ b, if b then read_val i else ub))              (* 111-115 *)
    (λ w i, variant_build_with i (match w with
       | ByKey => bind (read_key i) (λ k, ret (val <$> k))                (* 139 *)
       | ByCopy a => read_arg a                                           (* 148 *)
       | ByMove a => bind (read_arg a) (λ v, bind (moved_arg a) (λ _, ret v))  (* 158 *)
       end)).

  (** ** key_value without extractor: construction from a value does not
      compile (226, 230, 254-262) *)
  Definition product : pol := Pol
    (λ k, construct (λ i, new_key i (Some k)))                            (* 216-221 *)
    (λ j, construct (λ i, bind (read_key j) (λ k, new_key i k)))          (* 225 *)
    (λ j, construct (λ i, bind (read_key j) (λ k, bind (moved_key j) (λ _, new_key i k))))  (* 229 *)
    (λ _ _, ub)
    (λ i, bind (cted i) (λ b, bind (if b then kill_val i else ret tt)     (* 233-236; then the member key *)
                                (λ _, bind (kill_key i) (λ _, dealloc i))))
    read_key                                                              (* 238 *)
    (λ i, bind (cted i) (λ b, if b then read_val i else ub))              (* 240-244 *)
    (λ w i, match w with
       | ByKey => bind (cted i) (λ b, if b then ret tt                    (* 264-270 *)
                    else bind (read_key i) (λ k, bind (new_val i (val <$> k)) (λ _, set_cted i)))
       | _ => ub
       end).

  (** ** Factory operations.  Comparing keys may throw; comparing with a
      moved-from key is treated as an error. *)
  Context (P : pol).
  Fixpoint find_key (l : list nat) (k : K) : M (option nat) :=
    match l with
    | [] => ret None
    | h :: l => bind (key P h) (λ x, match x with
                  | Some k' => if eqv k' k then ret (Some h) else find_key l k
                  | None => ub
                  end)
    end.
  Definition fac_find (e : nat) : M (option nat) :=
    bind (key P e) (λ x, match x with
      | Some k => bind may_throw (λ _, λ m c, find_key (fac m) k m c)
      | None => ub
      end).
  Definition fac_push (n : nat) : M unit := λ m c, Ret tt (set_fac (n :: fac m) m) c.
  Definition fac_erase (h : nat) : M unit := λ m c,
    if bool_decide (h ∈ fac m) then dtor P h (set_fac (filter (λ n, n ≠ h) (fac m)) m) c else UB.

  (** factory.insert(std::move(e)): the node is move constructed if no
      equivalent entry exists *)
  Definition fac_insert (e : nat) : M nat :=
    bind (fac_find e) (λ o, match o with
      | Some h => ret h
      | None => bind (c_move P e) (λ n, bind (fac_push n) (λ _, ret n))
      end).

  (** flyweight_core.hpp 101-117 *)
  Definition insert_and_visit (e : nat) (w : how) : M nat :=
    bind (fac_insert e) (λ h, bind (on_throw (build P w h) (fac_erase h)) (λ _, ret h)).

  (** 261-274 (lvalue rep), 292-300 (rvalue rep) *)
  Definition insert_rep_lv (x : nat) : M nat :=
    bind (c_copy P x) (λ e, finally (insert_and_visit e ByKey) (dtor P e)).
  Definition insert_rep_rv (x : nat) : M nat :=
    bind (c_move P x) (λ e, finally (insert_and_visit e ByKey) (dtor P e)).
  (** 167-174: insert_rep(rep_type(args...)) *)
  Definition insert_args (k : K) : M nat :=
    bind (c_args P k) (λ x, finally (insert_rep_rv x) (dtor P x)).
  (** 276-289 (lvalue value [rv = false]), 302-311 (rvalue value) *)
  Definition insert_value (rv : bool) (a : nat) : M nat :=
    bind (c_value P rv a) (λ x, bind (finally (c_move P x) (dtor P x)) (λ e,
      finally (insert_and_visit e (if rv then ByMove a else ByCopy a)) (dtor P e))).

  (** ** Sequences of operations *)
  (** What the library and its caller do to rep objects and to the factory.
      [OVal v]: the caller makes a value; [OArgs], [OCopy], [OMove],
      [OByVal], [ODestroy]: rep objects outside the factory; the four
      insertions; [OErase h]: the factory's erase. *)
  Inductive op :=
    | OVal (v : V)
    | OArgs (k : K) | OCopy (j : nat) | OMove (j : nat) | OByVal (rv : bool) (a : nat) | ODestroy (i : nat)
    | OKey (i : nat) | OValue (h : nat) | OBuild (w : how) (i : nat)
    | OInsArgs (k : K) | OInsLv (x : nat) | OInsRv (x : nat) | OInsVal (rv : bool) (a : nat)
    | OErase (h : nat).
  Definition new_arg (v : V) : M nat := λ m c,
    let a := fresh (dom (args m)) in Ret a (set_args (<[a:=Some v]> (args m)) m) c.
  Definition exec (o : op) : M unit :=
    let go {X} (p : M X) : M unit := bind p (λ _, ret tt) in
    match o with
    | OVal v => go (new_arg v)
    | OArgs k => go (c_args P k) | OCopy j => go (c_copy P j) | OMove j => go (c_move P j)
    | OByVal rv a => go (c_value P rv a) | ODestroy i => dtor P i
    | OKey i => go (key P i) | OValue h => go (value P h) | OBuild w i => build P w i
    | OInsArgs k => go (insert_args k) | OInsLv x => go (insert_rep_lv x) | OInsRv x => go (insert_rep_rv x)
    | OInsVal rv a => go (insert_value rv a)
    | OErase h => fac_erase h
    end.
  (** What callers respect: the objects exist; entries are not moved from or
      destroyed behind the factory's back; only entries are read as values;
      keys to be looked up are not moved from; [vals]: the policy can be
      given values. *)
  Context (vals : bool).
  Definition has_rep (m : mem) (i : nat) : bool := bool_decide (is_Some (reps m !! i)).
  Definition has_key (m : mem) (i : nat) : bool := match key P i m [] with Ret (Some _) _ _ => true | _ => false end.
  Definition has_arg (m : mem) (a : nat) : bool := match args m !! a with Some (Some _) => vals | _ => false end.
  Definition legal (m : mem) (o : op) : bool :=
    match o with
    | OVal _ | OArgs _ | OInsArgs _ => true
    | OCopy j | OKey j => has_rep m j
    | OMove j | ODestroy j => has_rep m j && bool_decide (j ∉ fac m)
    | OByVal _ a | OInsVal _ a => has_arg m a
    | OValue h | OErase h => bool_decide (h ∈ fac m)
    | OBuild w i => has_rep m i && match w with ByKey => true | ByCopy a | ByMove a => has_arg m a end
    | OInsLv x => has_rep m x && has_key m x
    | OInsRv x => has_rep m x && has_key m x && bool_decide (x ∉ fac m)
    end.
  (** an operation that throws leaves the next one to be executed *)
  Fixpoint run_ops (l : list op) (m : mem) (c : list bool) : option mem :=
    match l with
    | [] => Some m
    | o :: l => if legal m o then match exec o m c with
                  | Ret _ m' c' | Thr m' c' => run_ops l m' c'
                  | UB => None
                  end else run_ops l m c
    end.
  Definition empty_mem : mem := Mem ∅ ∅ [] 0 0 [] [].

  (** ** H/detail/archive_constructed.hpp 31-71: a key object is made by
      load_construct_data_adl, then read into; here in the key slot of a rep
      object that stands for the temporary *)
  Definition read_into (i : nat) (k : K) : M unit :=
    bind (get_rep i) (λ r, match r_key r with
      | Some (o, _) => bind may_throw (λ _, put_rep i (Rep (Some (o, Some k)) (r_val r) (r_cted r)))
      | None => ub
      end).
  Definition archived (k : K) : M nat :=
    construct (λ i, bind (new_key i None) (λ _, on_throw (read_into i k) (kill_key i))).  (* 34-46, 48-60 *)
  Definition archived_dtor (i : nat) : M unit := bind (kill_key i) (λ _, dealloc i).      (* 62-65 *)
  (** its use, load.hpp: the temporary lives while [body] runs *)
  Definition with_archived {X} (k : K) (body : nat → M X) : M X :=
    bind (archived k) (λ i, finally (body i) (archived_dtor i)).
End Lifetime.

(** ** default_value_policy.hpp 30-76: one object, stored here in the key
    slot; it is the key and the value. *)
Section Default.
  Context {V : Type}.
  Definition default_pol : pol (K:=V) (V:=V) := Pol
    (λ k, construct (λ i, new_key i (Some k)))
    (λ j, construct (λ i, bind (read_key j) (λ k, new_key i k)))
    (λ j, construct (λ i, bind (read_key j) (λ k, bind (moved_key j) (λ _, new_key i k))))
    (λ rv a, construct (λ i, bind (read_arg a) (λ v, bind (if rv then moved_arg a else ret tt) (λ _, new_key i v))))
    (λ i, bind (kill_key i) (λ _, dealloc i))
    read_key
    read_key
    (λ _ _, ret tt).
End Default.
