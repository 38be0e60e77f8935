(** C52: which flyweight types the free functions accept.
    C56: overloads of the comparison operators, nested flyweights. *)
From Verif Require Import OperatorsProofs.

(** ** C52 *)
(** flyweight<T, args...>: arguments left out are void_ *)
Definition written (v : oty) (args : list arg) : oty := Fly v ((Some <$> args) ++ replicate (5 - length args) None).

Lemma written_length v args : length args ≤ 5 → ∃ l, written v args = Fly v l ∧ length l = 5.
Proof. intros H. eexists. split; [reflexivity|]. rewrite app_length, fmap_length, replicate_length. lia. Qed.
Lemma deducible_written n v args : n ≤ 5 → length args ≤ 5 → deducible n (written v args) = true ↔ length args ≤ n.
Proof.
  intros Hn Hl. unfold written, deducible. rewrite forallb_forall. split.
  - intros H. destruct (decide (length args ≤ n)) as [|Hgt]; [done|exfalso].
    destruct (lookup_lt_is_Some_2 args n) as [a Ha]; [lia|].
    assert (Some a ∈ drop n ((Some <$> args) ++ replicate (5 - length args) None)) as Hin.
    { apply elem_of_list_lookup. exists 0. rewrite lookup_drop, Nat.add_0_r, lookup_app_l by (rewrite fmap_length; lia).
      by rewrite list_lookup_fmap, Ha. }
    apply elem_of_list_In, H in Hin. rewrite bool_decide_true in Hin by eauto. done.
  - intros H x Hx. apply elem_of_list_In, elem_of_list_lookup in Hx as [i Hi]. rewrite lookup_drop, lookup_app_r in Hi by (rewrite fmap_length; lia).
    apply lookup_replicate in Hi as [-> _]. done.
Qed.

(** Streams, hash and swap accept every flyweight type. *)
Theorem C52_operators v args : length args ≤ 5 →
  accepts OpOut (written v args) = true ∧ accepts OpIn (written v args) = true ∧
  accepts HashValue (written v args) = true ∧ accepts StdHash (written v args) = true ∧
  swap_accepts (written v args) (written v args) = true.
Proof.
  intros Hl. assert (deducible 5 (written v args) = true) as Hd by (apply deducible_written; lia).
  unfold accepts, swap_accepts; simpl fn_par. rewrite Hd, bool_decide_true by done. done.
Qed.
(** Serialization accepts those with at most three policy arguments. *)
Theorem C52_serialization v args : length args ≤ 5 →
  (accepts Serialize (written v args) = true ↔ length args ≤ 3) ∧
  (accepts Save (written v args) = true ↔ length args ≤ 3) ∧
  (accepts Load (written v args) = true ↔ length args ≤ 3).
Proof. intros Hl. unfold accepts; simpl fn_par. split_and!; apply deducible_written; lia. Qed.

Local Arguments deduce : simpl never.
Section spelling.
  Context (strict : bool) (is : cat → ty → bool) (is_value0 : nat → bool).
  (** the categories in which a configuration is not the default *)
  Definition setting (x : config) (k : cat) : option ty :=
    match k with Tag => c_tag x | Tracking => Some (c_tracking x) | Factory => Some (c_factory x) | Locking => Some (c_locking x) | Holder => Some (c_holder x) end.
  Definition documented (k : cat) : option ty :=
    match k with Tag => None | Tracking => Some refcounted | Factory => Some hashed_factory | Locking => Some simple_locking | Holder => Some static_holder end.
  Definition specified (x : config) : list cat := filter (λ k, setting x k ≠ documented k) [Tag; Tracking; Factory; Locking; Holder].
  Lemma bind_size args : ∀ pack p, bind strict is pack args = Some p → size p ≤ size pack + length args.
  Proof.
    induction args as [|[c t|t] args IH]; intros pack p; simpl.
    - intros [= <-]. lia.
    - destruct (pack !! c) eqn:E; [done|]. intros H%IH. rewrite map_size_insert_None in H by done. lia.
    - match goal with |- context [deduce ?u ?s t] => destruct (deduce u s t) as [c|] eqn:E end.
      + intros H%IH. assert (pack !! c = None) as Hc.
        { revert E. unfold deduce, signature. repeat case_match; intros [= <-]; simpl in *; try done. }
        rewrite map_size_insert_None in H by done. lia.
      + destruct strict; [done|]. intros H%IH. lia.
  Qed.
  (** However a configuration is written, it takes an argument for each
      category that is not the default; so with four or more of these the type
      cannot be serialized. *)
  Theorem C52_spelling t args c : resolve strict is is_value0 t args = Some c → length (specified c) ≤ length args.
  Proof.
    unfold resolve. destruct (decide _); [done|]. destruct (bind _ _ _ _) as [p|] eqn:Eb; [|done].
    destruct (unmatched _ _); [done|]. intros [= <-]. apply bind_size in Eb. rewrite map_size_empty in Eb.
    transitivity (size p); [|lia]. rewrite <- size_dom. 
    rewrite <- (size_list_to_set (C:=gset cat) (specified _)) by (apply NoDup_filter; repeat constructor; set_solver).
    apply subseteq_size. intros k Hk. apply elem_of_list_to_set, elem_of_list_filter in Hk as [Hk _].
    apply elem_of_dom. destruct (p !! k) eqn:E; [by eauto|exfalso]. destruct k; simpl in Hk; rewrite E in Hk; by apply Hk.
  Qed.
  Theorem C52_unserializable t args c v : resolve strict is is_value0 t args = Some c → 4 ≤ length (specified c) →
    accepts Serialize (written v args) = false ∧ accepts Save (written v args) = false ∧ accepts Load (written v args) = false.
  Proof.
    intros Hr H4. pose proof (C52_spelling _ _ _ Hr) as Hs.
    assert (length args ≤ 5) as Hl. { revert Hr. unfold resolve. destruct (decide _); [done|]. intros _. lia. }
    destruct (C52_serialization v args Hl) as (H1 & H2 & H3).
    split_and!; apply not_true_is_false; intros H; [apply H1 in H|apply H2 in H|apply H3 in H]; lia.
  Qed.
End spelling.

(** A legal flyweight type that cannot be serialized: tag, no_tracking,
    set_factory, no_locking. *)
Definition is_ex (c : cat) (t : ty) : bool :=
  match c, t with
  | Tracking, Class (0 | 10) | Factory, Class (1 | 11) | Locking, Class (2 | 12) | Holder, Class 3 => true
  | _, _ => false
  end.
Definition four : list arg := [Key Tag (Class 30); Plain (Class 10); Plain (Class 11); Plain (Class 12)].
Theorem C52_serialization_refuted strict : ∃ t args c v,
  resolve strict is_ex (λ _, false) t args = Some c ∧ length args ≤ 5 ∧
  accepts OpOut (written v args) = true ∧ accepts Serialize (written v args) = false.
Proof.
  exists (Class 20), four. eexists. exists (Base 20).
  split; [destruct strict; by vm_compute|]. vm_compute. split_and!; [lia|done|done].
Qed.
Example C52_case : length [Key Tag (Class 30); Plain (Class 11)] ≤ 5 ∧
  accepts Serialize (written (Base 20) [Key Tag (Class 30); Plain (Class 11)]) = true ∧
  accepts Serialize (written (Base 20) (four ++ [Plain (Class 3)])) = false ∧ accepts HashValue (written (Base 20) (four ++ [Plain (Class 3)])) = true.
Proof. vm_compute. split_and!; [lia|done..]. Qed.
Example C52_unserializable_case : ∃ c, resolve true is_ex (λ _, false) (Class 20) four = Some c ∧ length (specified c) = 4.
Proof. eexists. split; by vm_compute. Qed.

(** ** C56 *)
Section chosen.
  Context (ucv : oty → oty → bool) (user_ops : cop → list (nat * nat * nat)).
  Notation choose := (choose ucv user_ops).
  (** Two flyweights of one type are compared with == and != by identity; other
      operators and other types take the operator for two flyweights, or for a
      flyweight and something else.  Nothing the user declares for other
      classes, and no conversion, changes that. *)
  Theorem C56_chosen o t u : proper t → proper u →
    (is_fly t → t = u → o = CEq ∨ o = CNe → choose o t u = Chosen (AFriend t)) ∧
    (is_fly t → is_fly u → (t ≠ u ∨ (o ≠ CEq ∧ o ≠ CNe)) → choose o t u = Chosen ABoth) ∧
    (is_fly t → is_base u → choose o t u = Chosen ALeft) ∧
    (is_base t → is_fly u → choose o t u = Chosen ARight).
  Proof.
    intros Ht Hu. split_and!.
    - intros (v & args & ->) <- Ho. apply choose_same; [done|]. apply Ht.
    - intros (v & args & ->) (w & args' & ->) Ho. apply choose_both; [apply Ht|apply Hu|].
      intros Ho' E. destruct Ho as [?|[??]]; [done|]. by destruct Ho'.
    - intros (v & args & ->) (n & ->). apply choose_left. apply Ht.
    - intros (n & ->) (v & args & ->). apply choose_right. apply Hu.
  Qed.
  (** Objects of classes derived from a flyweight type: two of them cannot be
      compared; one of them and a flyweight (even of that type) are compared by
      value. *)
  Theorem C56_derived o t u : proper t → proper u →
    (is_der t → is_der u → choose o t u = Ambiguous) ∧
    (is_der t → is_fly u → choose o t u = Chosen ARight) ∧
    (is_fly t → is_der u → choose o t u = Chosen ALeft) ∧
    (is_der t → is_base u → choose o t u = Chosen ALeft) ∧
    (is_base t → is_der u → choose o t u = Chosen ARight).
  Proof.
    intros Ht Hu. split_and!.
    - intros (n & v & args & ->) (m & w & args' & ->). apply choose_der_der; [apply Ht|apply Hu].
    - intros (n & v & args & ->) (w & args' & ->). apply choose_der_fly; [apply Ht|apply Hu].
    - intros (w & args' & ->) (n & v & args & ->). apply choose_fly_der; [apply Hu|apply Ht].
    - intros (n & v & args & ->) (m & ->). apply choose_der_base. apply Ht.
    - intros (m & ->) (n & v & args & ->). apply choose_base_der. apply Hu.
  Qed.
End chosen.

(** the value under all the flyweights *)
Fixpoint erase (x : oval) : nat * nat := match x with VBase n d => (n, d) | VFly _ _ v => erase v | VDer _ f => erase f end.
Fixpoint depth (x : oval) : nat := match x with VBase _ _ => 0 | VFly _ _ v => S (depth v) | VDer _ f => S (depth f) end.
(** flyweights, of flyweights, ..., of a plain value *)
Fixpoint simple (x : oval) : Prop := match x with VBase _ _ => True | VFly args _ v => length args = 5 ∧ simple v | VDer _ _ => False end.
Fixpoint part (y x : oval) : Prop := y = x ∨ match x with VBase _ _ => False | VFly _ _ v => part y v | VDer _ f => part y f end.

Section values.
  Context (ucv : oty → oty → bool) (user_ops : cop → list (nat * nat * nat)) (user : cop → nat → oval → oval → option bool).
  Notation compare := (compare ucv user_ops user).
  (** comparison of plain values *)
  Context (base : cop → nat * nat → nat * nat → bool).
  Definition base_ok (n m : nat) : Prop := ∀ o x y, ∃ i,
    choose ucv user_ops o (Base n) (Base m) = Chosen (AUser i) ∧ user o i (VBase n x) (VBase m y) = Some (base o (n, x) (m, y)).
  Definition consistent : Prop := ∀ p q, base CNe p q = negb (base CEq p q) ∧ base CGt p q = base CLt q p ∧
    base CGe p q = negb (base CLt p q) ∧ base CLe p q = negb (base CLt q p).
  (** Flyweights of one type in [x] or [y] share their entry just when the
      values under them are equal (C02). *)
  Definition shared (x y : oval) : Prop := ∀ args a i b j,
    part (VFly args a i) x ∨ part (VFly args a i) y → part (VFly args b j) x ∨ part (VFly args b j) y →
    type_of i = type_of j → (a = b ↔ base CEq (erase i) (erase j) = true).

  Lemma type_simple x : simple x → proper (type_of x).
  Proof. induction x; simpl; tauto. Qed.
  Lemma part_refl x : part x x.
  Proof. destruct x; simpl; auto. Qed.
  Lemma shared_sub x y x' y' : (∀ z, part z x' → part z x) → (∀ z, part z y' → part z y) → shared x y → shared x' y'.
  Proof. intros H1 H2 Hs args a i b j Hi Hj. refine (Hs args a i b j _ _); [destruct Hi; auto|destruct Hj; auto]. Qed.

  Lemma compare_lt n x y : base_ok (erase x).1 (erase y).1 → simple x → simple y → depth x + depth y < n → compare n CLt x y = Ret (base CLt (erase x) (erase y)).
  Proof.
    revert x y. induction n as [|n IH]; intros x y Hb Hx Hy Hn; [lia|].
    destruct x as [a x|args a v|]; [..|by destruct Hx]; (destruct y as [b y|args' b w|]; [..|by destruct Hy]); simpl in Hx, Hy, Hn.
    - simpl in Hb |- *. destruct (Hb CLt x y) as (i & -> & ->). done.
    - destruct Hy as [Hl Hw]. change (erase (VFly args' b w)) with (erase w). cbn [Operators.compare type_of].
      rewrite (choose_right ucv user_ops CLt (type_of w) args' a) by done. cbn [get_value].
      rewrite IH; [done|done|done|done|simpl; lia].
    - destruct Hx as [Hl Hv]. change (erase (VFly args a v)) with (erase v). cbn [Operators.compare type_of].
      rewrite choose_left by done. cbn [get_value]. rewrite IH; [done|done|done|done|simpl; lia].
    - destruct Hx as [Hl Hv], Hy as [Hl' Hw]. cbn [Operators.compare type_of erase].
      rewrite choose_both by (done || (intros [?|?]; discriminate)). cbn [get_value]. rewrite IH; [done|done|done|done|lia].
  Qed.
  Lemma compare_eq n x y : base_ok (erase x).1 (erase y).1 → shared x y → simple x → simple y → depth x + depth y < n → compare n CEq x y = Ret (base CEq (erase x) (erase y)).
  Proof.
    revert x y. induction n as [|n IH]; intros x y Hb Hs Hx Hy Hn; [lia|].
    destruct x as [a x|args a v|]; [..|by destruct Hx]; (destruct y as [b y|args' b w|]; [..|by destruct Hy]); simpl in Hx, Hy, Hn.
    - simpl in Hb |- *. destruct (Hb CEq x y) as (i & -> & ->). done.
    - destruct Hy as [Hl Hw]. change (erase (VFly args' b w)) with (erase w). cbn [Operators.compare type_of].
      rewrite (choose_right ucv user_ops CEq (type_of w) args' a) by done. cbn [get_value].
      rewrite IH; [done|done| |done|done|simpl; lia]. eapply shared_sub; [| |exact Hs]; [done|]. intros z Hz. simpl. auto.
    - destruct Hx as [Hl Hv]. change (erase (VFly args a v)) with (erase v). cbn [Operators.compare type_of].
      rewrite choose_left by done. cbn [get_value]. rewrite IH; [done|done| |done|done|simpl; lia].
      eapply shared_sub; [| |exact Hs]; [|done]. intros z Hz. simpl. auto.
    - destruct Hx as [Hl Hv], Hy as [Hl' Hw]. cbn [Operators.compare type_of erase].
      destruct (decide (Fly (type_of v) args = Fly (type_of w) args')) as [E|E].
      + rewrite <- E. rewrite choose_same by auto. unfold bound. cbn [type_of]. rewrite decide_True by done. rewrite decide_True by done.
        cbn [address]. f_equal. injection E as Et <-. specialize (Hs args a v b w). specialize (Hs (or_introl (part_refl _)) (or_intror (part_refl _)) Et).
        destruct (base CEq (erase v) (erase w)); [rewrite bool_decide_true; [done|by apply Hs]|rewrite bool_decide_false; [done|]]. intros ->. by pose proof (proj1 Hs eq_refl).
      + rewrite choose_both by done. cbn [get_value]. rewrite IH; [done|done| |done|done|lia].
        eapply shared_sub; [| |exact Hs]; intros z Hz; simpl; auto.
  Qed.

  (** Comparing flyweights with each other or with values, through any number
      of levels, is comparing the values under them. *)
  Theorem C56_values o x y n : base_ok (erase x).1 (erase y).1 → base_ok (erase y).1 (erase x).1 → consistent → simple x → simple y → (o = CEq ∨ o = CNe → shared x y) →
    S (depth x + depth y) < n → compare n o x y = Ret (base o (erase x) (erase y)).
  Proof.
    intros Hb Hb' Hc Hx Hy Hs Hn. destruct n as [|n]; [lia|].
    destruct (Hc (erase x) (erase y)) as (C1 & C2 & C3 & C4).
    destruct o; try (rewrite compare_eq; auto; lia); try (rewrite compare_lt; auto; lia).
    all: destruct x as [a x|args a v|]; [..|by destruct Hx]; (destruct y as [b y|args' b w|]; [..|by destruct Hy]).
    all: try (match goal with |- Operators.compare _ _ _ _ ?o (VBase ?p ?x) (VBase ?q ?y) = _ => let i := fresh in simpl in Hb |- *; destruct (Hb o x y) as (i & -> & ->) end; done).
    all: pose proof Hx as Hx'; pose proof Hy as Hy'; simpl in Hx', Hy', Hn.
    all: repeat match goal with H : _ ∧ _ |- _ => destruct H end.
    all: cbn [Operators.compare type_of].
    - rewrite (choose_right ucv user_ops CNe (type_of w) args' a) by done. rewrite compare_eq by (auto; simpl; lia). by rewrite C1.
    - cbn [type_of]. rewrite choose_left by done. rewrite compare_eq by (auto; simpl; lia). by rewrite C1.
    - cbn [type_of]. destruct (decide (Fly (type_of v) args = Fly (type_of w) args')) as [E|E].
      + rewrite <- E, choose_same by auto. unfold bound. cbn [type_of]. rewrite decide_True by done. rewrite decide_True by done.
        rewrite compare_eq by (auto; simpl; lia). by rewrite C1.
      + rewrite choose_both by done. rewrite compare_eq by (auto; simpl; lia). by rewrite C1.
    - rewrite (choose_right ucv user_ops CGt (type_of w) args' a) by done. rewrite compare_lt by (auto; simpl; lia). by rewrite C2.
    - cbn [type_of]. rewrite choose_left by done. rewrite compare_lt by (auto; simpl; lia). by rewrite C2.
    - cbn [type_of]. rewrite choose_both by (done || (intros [?|?]; discriminate)). rewrite compare_lt by (auto; simpl; lia). by rewrite C2.
    - rewrite (choose_right ucv user_ops CLe (type_of w) args' a) by done. rewrite compare_lt by (auto; simpl; lia). by rewrite C4.
    - cbn [type_of]. rewrite choose_left by done. rewrite compare_lt by (auto; simpl; lia). by rewrite C4.
    - cbn [type_of]. rewrite choose_both by (done || (intros [?|?]; discriminate)). rewrite compare_lt by (auto; simpl; lia). by rewrite C4.
    - rewrite (choose_right ucv user_ops CGe (type_of w) args' a) by done. rewrite compare_lt by (auto; simpl; lia). by rewrite C3.
    - cbn [type_of]. rewrite choose_left by done. rewrite compare_lt by (auto; simpl; lia). by rewrite C3.
    - cbn [type_of]. rewrite choose_both by (done || (intros [?|?]; discriminate)). rewrite compare_lt by (auto; simpl; lia). by rewrite C3.
  Qed.
End values.

(** ** Where identity and value differ *)
Definition no_args : list (option arg) := replicate 5 None.
Definition tagged : list (option arg) := Some (Key Tag (Class 30)) :: replicate 4 None.
Definition ops0 (o : cop) : list (nat * nat * nat) := [(0, 0, 0)].
Definition user_of (b : cop → nat * nat → nat * nat → bool) (o : cop) (i : nat) (x y : oval) : option bool :=
  match x, y with VBase n a, VBase m b' => Some (b o (n, a) (m, b')) | _, _ => None end.
Definition base_of (eq : nat → nat → bool) (o : cop) (p q : nat * nat) : bool :=
  match o with
  | CEq => eq p.2 q.2 | CNe => negb (eq p.2 q.2)
  | CLt => p.2 <? q.2 | CGt => q.2 <? p.2 | CLe => negb (q.2 <? p.2) | CGe => negb (p.2 <? q.2)
  end.
(** a coarse == *)
Definition parity (a b : nat) : bool := Bool.eqb (Nat.even a) (Nat.even b).

(** With an == under which values in different entries are equal, a flyweight
    of a flyweight equals a flyweight which its value does not equal. *)
Theorem C56_values_refuted : ∃ x y v, get_value x = Some v ∧ type_of v = type_of y ∧ simple x ∧ simple y ∧
  compare (λ _ _, false) ops0 (user_of (base_of parity)) 9 CEq x y = Ret true ∧
  compare (λ _ _, false) ops0 (user_of (base_of parity)) 9 CEq v y = Ret false.
Proof.
  exists (VFly tagged 7 (VFly no_args 3 (VBase 0 1))), (VFly no_args 4 (VBase 0 5)), (VFly no_args 3 (VBase 0 1)).
  vm_compute. split_and!; reflexivity || exact I.
Qed.
(** The same for an object of a class derived from a flyweight type. *)
Theorem C56_derived_refuted : ∃ d f g, type_of f = type_of g ∧ d = VDer 1 f ∧
  compare (λ _ _, false) ops0 (user_of (base_of parity)) 9 CEq d g = Ret true ∧
  compare (λ _ _, false) ops0 (user_of (base_of parity)) 9 CEq f g = Ret false ∧
  compare (λ _ _, false) ops0 (user_of (base_of parity)) 9 CEq d d = IllFormed.
Proof.
  exists (VDer 1 (VFly no_args 3 (VBase 0 1))), (VFly no_args 3 (VBase 0 1)), (VFly no_args 4 (VBase 0 5)).
  vm_compute. split_and!; reflexivity.
Qed.

(** ** Examples *)
Example C56_chosen_case : let t := Fly (Base 0) no_args in let u := Fly t tagged in
  proper t ∧ proper u ∧
  choose (λ _ _, true) ops0 CEq t t = Chosen (AFriend t) ∧ choose (λ _ _, true) ops0 CEq u t = Chosen ABoth ∧
  choose (λ _ _, true) ops0 CEq t (Base 0) = Chosen ALeft ∧ choose (λ _ _, true) ops0 CLt (Base 0) u = Chosen ARight ∧
  choose (λ _ _, true) ops0 CNe (Der 1 t) (Der 1 t) = Ambiguous ∧ choose (λ _ _, true) ops0 CEq (Der 1 t) t = Chosen ARight.
Proof. vm_compute. split_and!; reflexivity || exact I. Qed.
Example C56_values_case : let x := VFly tagged 7 (VFly no_args 3 (VBase 0 1)) in let y := VFly no_args 4 (VBase 0 2) in
  let b := base_of Nat.eqb in
  base_ok (λ _ _, false) ops0 (user_of b) b 0 0 ∧ consistent b ∧ simple x ∧ simple y ∧ shared b x y ∧
  compare (λ _ _, false) ops0 (user_of b) 9 CNe x y = Ret true ∧ compare (λ _ _, false) ops0 (user_of b) 9 CGe y (VBase 0 1) = Ret true.
Proof.
  intros x y b. split_and!; try (by vm_compute).
  - intros o u v. exists 0. split; [by destruct o|done].
  - intros args a i c j Hi Hj _.
    assert (∀ args a i, part (VFly args a i) x ∨ part (VFly args a i) y →
      (args = tagged ∧ a = 7 ∧ (erase i).2 = 1) ∨ (args = no_args ∧ a = 3 ∧ (erase i).2 = 1) ∨ (args = no_args ∧ a = 4 ∧ (erase i).2 = 2)) as H.
    { clear. intros args a i. unfold x, y. simpl.
      intros [[[= -> -> ->]|[[= -> -> ->]|[[=]|[]]]]|[[= -> -> ->]|[[=]|[]]]]; simpl; auto. }
    apply H in Hi, Hj. unfold b, base_of. rewrite Nat.eqb_eq.
    destruct Hi as [(-> & -> & ->)|[(-> & -> & ->)|(-> & -> & ->)]], Hj as [(E & -> & ->)|[(E & -> & ->)|(E & -> & ->)]]; try done.
Qed.

Print Assumptions C52_operators.
Print Assumptions C52_serialization.
Print Assumptions C52_spelling.
Print Assumptions C52_unserializable.
Print Assumptions C52_serialization_refuted.
Print Assumptions C56_chosen.
Print Assumptions C56_derived.
Print Assumptions C56_values.
Print Assumptions C56_values_refuted.
Print Assumptions C56_derived_refuted.
