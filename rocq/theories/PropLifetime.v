(** Properties of the object lifetimes in [Lifetime.v].  [run_ops … l
    empty_mem c]: the operations [l] in a row, [c] deciding which
    constructors and comparisons throw; an operation that throws is followed
    by the next one.  The result is [None] if there was undefined behaviour.
    [balanced], [holds]: [LifetimeRun.v]. *)
From Verif Require Import LifetimeRun.

(** ** Vocabulary *)
Section Vocabulary.
  Context {K V : Type}.
  Notation rep := (rep (K:=K) (V:=V)).
  Notation mem := (mem (K:=K) (V:=V)).
  Definition only_key (r : rep) : Prop := (∃ o k, r_key r = Some (o, k)) ∧ r_val r = None.
  Definition only_value (r : rep) : Prop := r_key r = None ∧ ∃ o v, r_val r = Some (o, v).
  Definition value_is (r : rep) (v : V) : Prop := ∃ o, r_val r = Some (o, Some v).
  Definition key_is (r : rep) (k : K) : Prop := ∃ o, r_key r = Some (o, Some k).
  (** the memory after an operation, however it was left *)
  Definition after {X} (o : out (K:=K) (V:=V) X) (m' : mem) : Prop :=
    match o with Ret _ m _ | Thr m _ => m' = m | UB => False end.
End Vocabulary.

Section Variant.
  Context {K V : Type} (val : K → V) (ext : V → K) (eqv : K → K → bool).
  Notation P := (variant val ext).
  Implicit Types (m : mem (K:=K) (V:=V)).

  Lemma variant_shape (r : rep (K:=K) (V:=V)) : variant_ok r → only_key r ∨ only_value r.
  Proof.
    unfold variant_ok. destruct (r_cted r).
    - intros [Hk [[o v] Hv]]. right. split; eauto.
    - intros [[[o k] Hk] Hv]. left. split; eauto.
  Qed.
  Lemma variant_run l c : ∃ m, run_ops eqv P true l empty_mem c = Some m ∧
    Inv val variant_ok r_cted (variant_key ext) val_in true ext m.
  Proof. exact (run_empty eqv P val _ _ _ _ true false ext (variant_pol_ok val ext) l c). Qed.

  (** C12: whatever is done and whatever throws, there is no use of a dead
      object, every rep object holds either a key or a value, entries hold a
      value, the accounts of key and value objects balance, and with all
      rep objects gone all of these have been destroyed exactly once. *)
  Theorem C12_lifetimes l c : ∃ m,
    run_ops eqv P true l empty_mem c = Some m ∧
    (∀ i r, reps m !! i = Some r → only_key r ∨ only_value r) ∧
    (∀ h, h ∈ fac m → ∃ r v, reps m !! h = Some r ∧ only_value r ∧ value_is r v) ∧
    balanced m ∧
    (reps m = ∅ → made m ≡ₚ gone m).
  Proof.
    destruct (variant_run l c) as (m&Hm&HC&Hok&Hnd&HF). pose proof (cnt_balanced m HC) as Hb. exists m. split_and!; [done| |  |done|].
    - intros i r Hi. apply variant_shape. by eapply Hok.
    - intros h Hh. destruct (HF h Hh) as (r&k&Hr&Hbt&_&v&Hv&_). exists r, v. split; [done|].
      pose proof (Hok _ _ Hr) as Ho. unfold variant_ok in Ho. rewrite Hbt in Ho. destruct Ho as [Hk [[o x] Hx]].
      unfold val_in in Hv. rewrite Hx in Hv. subst x. split; [split; eauto|by eexists].
    - by apply balanced_empty.
  Qed.

  (** the states these theorems speak about *)
  Definition v_reached m : Prop := ∃ l c, run_ops eqv P true l empty_mem c = Some m.
  Lemma v_reached_inv m : v_reached m → Inv val variant_ok r_cted (variant_key ext) val_in true ext m.
  Proof. intros (l&c&Hr). destruct (variant_run l c) as (m'&Hm&HI). by simplify_eq. Qed.

  (** C12: once in the factory an entry is the same objects until erased *)
  Theorem C12_entries_stay m o c m' h : v_reached m → legal P true m o = true →
    after (exec eqv P o m c) m' → h ∈ fac m → h ∈ fac m' → reps m' !! h = reps m !! h.
  Proof.
    intros Hr%v_reached_inv Hl Ha. pose proof (exec_ok eqv P val _ _ _ _ true false ext (variant_pol_ok val ext) o m Hr Hl c) as H.
    destruct (exec eqv P o m c); simpl in Ha; subst; [..|done]; apply H.
  Qed.

  (** C14: a flyweight from an rvalue value.  Equivalent entry present: the
      argument is untouched.  Otherwise the argument is moved from, and what
      it held is the value of the new entry. *)
  Theorem C14_rvalue m a v c : v_reached m → args m !! a = Some (Some v) →
    match insert_value eqv P true a m c with
    | Ret h m' _ =>
        (∃ r u, h ∈ fac m ∧ reps m !! h = Some r ∧ value_is r u ∧ eqv (ext u) (ext v) = true ∧
                args m' = args m ∧ reps m' = reps m ∧ fac m' = fac m) ∨
        ((∀ h' r u, h' ∈ fac m → reps m !! h' = Some r → value_is r u → eqv (ext u) (ext v) = false) ∧
         reps m !! h = None ∧ fac m' = h :: fac m ∧ args m' = <[a:=None]> (args m) ∧
         ∃ r, reps m' = <[h:=r]> (reps m) ∧ only_value r ∧ value_is r v)
    | Thr m' _ => reps m' = reps m ∧ fac m' = fac m ∧ (args m' = args m ∨ args m' = <[a:=None]> (args m))
    | UB => False
    end.
  Proof.
    intros Hr%v_reached_inv Ha.
    pose proof (insert_value_wp eqv P val _ _ _ _ true false ext (variant_pol_ok val ext) true a v m eq_refl Hr Ha c) as H.
    destruct Hr as [_ (Hok&_&HF)].
    assert (Hval : ∀ h r, h ∈ fac m → reps m !! h = Some r → ∃ u, value_is r u ∧ variant_key ext r = Some (ext u)).
    { intros h r Hh Hr. destruct (HF h Hh) as (r'&k&Hr'&Hb&_&u&Hu&_). simplify_eq. pose proof (Hok _ _ Hr) as Ho. unfold variant_ok in Ho.
      rewrite Hb in Ho. destruct Ho as [_ [[o x] Hx]]. unfold variant_key, val_in in *. rewrite Hx in *. rewrite Hb. subst x. exists u. split; [by eexists|done]. }
    assert (Huniq : ∀ (r : rep (K:=K) (V:=V)) u u', value_is r u → value_is r u' → u = u') by (intros r u u' [? E] [? E']; congruence).
    destruct (insert_value eqv P true a m c) as [h m' c'|m' c'|]; [| |done].
    - destruct H as [_ [([Hh (r&k'&Hr&Hk&He)]&HR&HFf&HA)|(Hab&Hn&(r&Hst&HR)&HFf&HA)]].
      + left. destruct (Hval h r Hh Hr) as (u&Hu&Hku). exists r, u. rewrite Hku in Hk. simplify_eq. done.
      + right. split_and!; [|done|done|done|].
        * intros h' r' u Hh' Hr' Hu. destruct (Hval h' r' Hh' Hr') as (u'&Hu'&Hk'). rewrite (Huniq _ _ _ Hu Hu'). by eapply Hab.
        * exists r. split; [done|]. destruct Hst as (Ho&Hb&Hv&_). unfold variant_ok in Ho. rewrite Hb in Ho.
          destruct Ho as [Hk [[o x] Hx]]. unfold val_in in Hv. rewrite Hx in Hv. subst x. split; [split; eauto|by eexists].
    - destruct H as (_&?&?&?). done.
  Qed.

  (** C14: an lvalue value is never modified *)
  Theorem C14_lvalue m a v c : v_reached m → args m !! a = Some (Some v) →
    ∃ m', after (insert_value eqv P false a m c) m' ∧ args m' = args m.
  Proof.
    intros Hr%v_reached_inv Ha.
    pose proof (insert_value_wp eqv P val _ _ _ _ true false ext (variant_pol_ok val ext) false a v m eq_refl Hr Ha c) as H.
    destruct (insert_value eqv P false a m c) as [h m' c'|m' c'|]; [..|done]; exists m'; (split; [done|]).
    - by destruct H as [_ [(_&_&_&->)|(_&_&_&_&->)]].
    - by destruct H as (_&_&_&[->| ->]).
  Qed.
End Variant.

(** without extractor ([ext] is any function; the code does not have it and
    the statements do not mention it) *)
Section Product.
  Context {K V : Type} (val : K → V) (ext : V → K) (eqv : K → K → bool).
  Notation P := (product val).
  Implicit Types (m : mem (K:=K) (V:=V)).

  Lemma product_run l c : ∃ m, run_ops eqv P false l empty_mem c = Some m ∧
    Inv val product_ok r_cted key_in val_in false ext m.
  Proof. exact (run_empty eqv P val _ _ _ _ false false ext (product_pol_ok val ext) l c). Qed.
  Definition p_reached m : Prop := ∃ l c, run_ops eqv P false l empty_mem c = Some m.
  Lemma p_reached_inv m : p_reached m → Inv val product_ok r_cted key_in val_in false ext m.
  Proof. intros (l&c&Hr). destruct (product_run l c) as (m'&Hm&HI). by simplify_eq. Qed.

  (** C13: every rep object has a key; every entry has a key and the value
      made of it; accounts balance. *)
  Theorem C13_lifetimes l c : ∃ m,
    run_ops eqv P false l empty_mem c = Some m ∧
    (∀ i r, reps m !! i = Some r → ∃ o k, r_key r = Some (o, k)) ∧
    (∀ h, h ∈ fac m → ∃ r k, reps m !! h = Some r ∧ key_is r k ∧ value_is r (val k)) ∧
    balanced m ∧
    (reps m = ∅ → made m ≡ₚ gone m).
  Proof using ext.
    destruct (product_run l c) as (m&Hm&HC&Hok&Hnd&HF). pose proof (cnt_balanced m HC) as Hb. exists m. split_and!; [done| | |done|].
    - intros i r Hi. destruct (Hok _ _ Hi) as [[[o k] Hk] _]. eauto.
    - intros h Hh. destruct (HF h Hh) as (r&k&Hr&Hbt&Hk&v&Hv&[->|[? _]]); [|done]. exists r, k. split; [done|].
      destruct (Hok _ _ Hr) as [[[o k'] Hk'] Hv']. rewrite Hbt in Hv'. destruct Hv' as [[o' v'] Hv'].
      unfold key_in, val_in in *. rewrite Hk', Hv' in *. subst. split; by eexists.
    - by apply balanced_empty.
  Qed.

  (** C13: key and value objects of an entry are the same, with the same
      contents, until it is erased; get_key() returns the stored key. *)
  Theorem C13_entries_stay m o c m' h : p_reached m → legal P false m o = true →
    after (exec eqv P o m c) m' → h ∈ fac m → h ∈ fac m' → reps m' !! h = reps m !! h.
  Proof using ext.
    intros Hr%p_reached_inv Hl Ha. pose proof (exec_ok eqv P val _ _ _ _ false false ext (product_pol_ok val ext) o m Hr Hl c) as H.
    destruct (exec eqv P o m c); simpl in Ha; subst; [..|done]; apply H.
  Qed.
  Theorem C13_get_key m h c : p_reached m → h ∈ fac m →
    ∃ r k, reps m !! h = Some r ∧ key_is r k ∧ key P h m c = Ret (Some k) m c ∧ value P h m c = Ret (Some (val k)) m c.
  Proof using ext.
    intros (l&cl&Hr) Hh. destruct (C13_lifetimes l cl) as (m'&Hm&_&HF&_). simplify_eq.
    destruct (HF h Hh) as (r&k&Hrh&Hk&Hv). exists r, k. pose proof (p_reached_inv m ltac:(by exists l, cl)) as [_ [Hok [_ HG]]].
    destruct (HG h Hh) as (r'&_&Hr'&Hb&_). simplify_eq.
    split_and!; [done|done| |].
    - rewrite (ok_key _ _ _ _ _ _ _ _ _ (product_pol_ok val ext) h r m Hrh (Hok _ _ Hrh) c). destruct Hk as [o Hk]. unfold key_in. by rewrite Hk.
    - rewrite (ok_val _ _ _ _ _ _ _ _ _ (product_pol_ok val ext) h r m Hrh (Hok _ _ Hrh) Hb c). destruct Hv as [o Hv]. unfold val_in. by rewrite Hv.
  Qed.

  (** C13: an insertion that throws changes nothing that remains; one that
      returns adds at most its entry *)
  Theorem C13_insert m k c : p_reached m →
    match insert_args eqv P k m c with
    | Ret h m' _ =>
        (∃ r k', h ∈ fac m ∧ reps m !! h = Some r ∧ key_is r k' ∧ eqv k' k = true ∧ reps m' = reps m ∧ fac m' = fac m) ∨
        (reps m !! h = None ∧ fac m' = h :: fac m ∧
         (∀ h' r k', h' ∈ fac m → reps m !! h' = Some r → key_is r k' → eqv k' k = false) ∧
         ∃ r, reps m' = <[h:=r]> (reps m) ∧ key_is r k ∧ value_is r (val k))
    | Thr m' _ => reps m' = reps m ∧ fac m' = fac m
    | UB => False
    end.
  Proof using ext.
    intros Hr%p_reached_inv.
    pose proof (insert_args_wp eqv P val _ _ _ _ false false ext (product_pol_ok val ext) k m Hr c) as H.
    assert (Hki : ∀ (r : rep (K:=K) (V:=V)) k', product_ok r → key_in r = Some k' ↔ key_is r k').
    { intros r k' [[[o x] Hx] _]. unfold key_in, key_is. rewrite Hx. naive_solver. }
    destruct Hr as [_ [Hok _]].
    destruct (insert_args eqv P k m c) as [h m' c'|m' c'|]; [| |done].
    - destruct H as [_ [([Hh (r&k'&Hr&Hk&He)]&HR&HFf&HA)|(Hab&Hn&(r&Hst&HR)&HFf&HA)]].
      + left. exists r, k'. split_and!; try done. apply Hki; [by eapply Hok|done].
      + right. split_and!; [done|done| |].
        * intros h' r' k' Hh' Hr' Hk'. eapply Hab; [done|done|]. apply Hki; [by eapply Hok|done].
        * exists r. split; [done|]. destruct Hst as (Ho&Hb&Hv&[[Hk _]|[? _]]); [|done]. split; [by apply Hki|].
          destruct Ho as [_ Ho]. rewrite Hb in Ho. destruct Ho as [[o x] Hx]. unfold val_in in Hv. rewrite Hx in Hv. subst. by eexists.
    - destruct H as (_&?&?&_). done.
  Qed.
End Product.

Section DefaultPolicy.
  Context {V : Type} (eqv : V → V → bool).
  Notation P := (default_pol (V:=V)).
  Implicit Types (m : mem (K:=V) (V:=V)).
  Lemma default_run l c : ∃ m, run_ops eqv P true l empty_mem c = Some m ∧
    Inv id default_ok (λ _, true) key_in key_in true id m.
  Proof. exact (run_empty eqv P id _ _ _ _ true true id default_pol_ok l c). Qed.
  Definition d_reached m : Prop := ∃ l c, run_ops eqv P true l empty_mem c = Some m.
  Lemma d_reached_inv m : d_reached m → Inv id default_ok (λ _, true) key_in key_in true id m.
  Proof. intros (l&c&Hr). destruct (default_run l c) as (m'&Hm&HI). by simplify_eq. Qed.

  (** C12/C13 for the default policy: one object per rep object *)
  Theorem C13_default_lifetimes l c : ∃ m,
    run_ops eqv P true l empty_mem c = Some m ∧
    (∀ i r, reps m !! i = Some r → only_key r) ∧
    (∀ h, h ∈ fac m → ∃ r v, reps m !! h = Some r ∧ key_is r v) ∧
    balanced m ∧
    (reps m = ∅ → made m ≡ₚ gone m).
  Proof.
    destruct (default_run l c) as (m&Hm&HC&Hok&Hnd&HF). pose proof (cnt_balanced m HC) as Hb. exists m. split_and!; [done| | |done|].
    - intros i r Hi. destruct (Hok _ _ Hi) as [[[o k] Hk] Hv]. split; eauto.
    - intros h Hh. destruct (HF h Hh) as (r&k&Hr&_&Hk&_). exists r, k. split; [done|].
      destruct (Hok _ _ Hr) as [[[o x] Hx] _]. unfold key_in in Hk. rewrite Hx in Hk. subst. by eexists.
    - by apply balanced_empty.
  Qed.

  (** C14 is about key_value only: the default policy takes an rvalue
      argument even if an equivalent entry exists. *)
  Theorem C14_default_always_taken m a v c : d_reached m → args m !! a = Some (Some v) →
    match insert_value eqv P true a m c with
    | Ret h m' _ => args m' = <[a:=None]> (args m)
    | Thr m' _ => args m' = args m ∨ args m' = <[a:=None]> (args m)
    | UB => False
    end.
  Proof.
    intros Hr%d_reached_inv Ha.
    pose proof (insert_value_wp eqv P id _ _ _ _ true true id default_pol_ok true a v m eq_refl Hr Ha c) as H.
    destruct (insert_value eqv P true a m c) as [h m' c'|m' c'|]; [| |done].
    - by destruct H as [_ [(_&_&_&->)|(_&_&_&_&->)]].
    - by destruct H as (_&_&_&?).
  Qed.
End DefaultPolicy.

(** ** C50: the temporary key of a load *)
Section Archived.
  Context {K V : Type}.
  Implicit Types (m : mem (K:=K) (V:=V)).

  Theorem C50_construction k m c : reps m !! nrep m = None →
    match archived k m c with
    | Ret i m' _ => reps m !! i = None ∧ reps m' = <[i:=Rep (Some (nobj m, Some k)) None false]> (reps m) ∧
                    made m' = nobj m :: made m ∧ gone m' = gone m
    | Thr m' _ => reps m' = reps m ∧
                  (made m' = made m ∧ gone m' = gone m ∨ made m' = nobj m :: made m ∧ gone m' = nobj m :: gone m)
    | UB => False
    end.
  Proof.
    intros Hn. unfold archived, construct, new_key, read_into, kill_key, on_throw, bind, alloc, dealloc, get_rep, put_rep, may_throw, fresh_obj, dead, ret.
    simpl. rewrite lookup_insert. simpl. destruct c as [|[] c]; simpl.
    - rewrite lookup_insert. simpl. by rewrite !insert_insert.
    - rewrite lookup_insert. simpl. rewrite delete_insert by done. auto.
    - rewrite lookup_insert. simpl. destruct c as [|[] c]; simpl.
      + by rewrite !insert_insert.
      + rewrite lookup_insert. simpl. rewrite lookup_insert, !insert_insert, delete_insert by done. auto.
      + by rewrite !insert_insert.
  Qed.

  (** while the temporary is used by [body], which may throw but leaves the
      temporary alone: at the end it is gone, destroyed once *)
  Theorem C50_destroyed_once {X} k (body : nat → M X) m c : reps m !! nrep m = None →
    (∀ i m1 c1, archived k m c = Ret i m1 c1 →
       match body i m1 c1 with Ret _ m2 _ | Thr m2 _ => reps m2 !! i = reps m1 !! i | UB => False end) →
    match with_archived k body m c with
    | Ret _ m' _ => ∃ i m1 m2 c1 x c2,
        archived k m c = Ret i m1 c1 ∧ body i m1 c1 = Ret x m2 c2 ∧
        reps m' = delete i (reps m2) ∧ made m' = made m2 ∧ gone m' = nobj m :: gone m2
    | Thr m' _ =>
        (reps m' = reps m ∧
          (made m' = made m ∧ gone m' = gone m ∨ made m' = nobj m :: made m ∧ gone m' = nobj m :: gone m)) ∨
        ∃ i m1 m2 c1 c2, archived k m c = Ret i m1 c1 ∧ body i m1 c1 = Thr m2 c2 ∧
          reps m' = delete i (reps m2) ∧ made m' = made m2 ∧ gone m' = nobj m :: gone m2
    | UB => False
    end.
  Proof.
    intros Hn Hbody. pose proof (C50_construction k m c Hn) as H. unfold with_archived, bind at 1.
    destruct (archived k m c) as [i m1 c1|m1 c1|] eqn:Ea; [|by left|done]. destruct H as (Hi&HR1&Hm1&Hg1).
    specialize (Hbody i m1 c1 eq_refl). unfold finally.
    assert (Hd : ∀ m2 c2, reps m2 !! i = reps m1 !! i →
      ∃ m3, archived_dtor i m2 c2 = Ret tt m3 c2 ∧ reps m3 = delete i (reps m2) ∧ made m3 = made m2 ∧ gone m3 = nobj m :: gone m2).
    { intros m2 c2 H2. rewrite HR1, lookup_insert in H2. unfold archived_dtor, bind, kill_key, get_rep, dealloc, bind. rewrite H2. simpl.
      rewrite lookup_insert. eexists. split; [done|]. simpl. by rewrite delete_insert_delete. }
    destruct (body i m1 c1) as [x m2 c2|m2 c2|] eqn:Eb; [| |done].
    - destruct (Hd m2 c2 Hbody) as (m3&->&?&?&?). exists i, m1, m2, c1, x, c2. done.
    - destruct (Hd m2 c2 Hbody) as (m3&->&?&?&?). right. exists i, m1, m2, c1, c2. done.
  Qed.
End Archived.

(** ** Concrete cases: keys [nat], values [nat * nat] whose second component
    is the key *)
Definition lv_val (k : nat) : nat * nat := (10 * k, k).
Definition lv_run (l : list op) (c : list bool) : mem :=
  match run_ops Nat.eqb (variant lv_val snd) true l empty_mem c with Some m => m | None => empty_mem end.
(** an entry for key 1 and one for key 2; the value constructor of a third
    insertion throws; the first
    entry is erased; a caller's value with key 2 and one with key 5 *)
Definition lv_ops : list op := [OInsArgs 1; OInsArgs 2; OInsArgs 3; OErase 2; OVal (7, 2); OVal (9, 5)].
Definition lv_choices : list bool := replicate 14 false ++ [true].
Example lv_demo :
  let m := lv_run lv_ops lv_choices in
  length (made m) = 11 ∧ length (gone m) = 10 ∧ length (fac m) = 1 ∧ args m !! 0 = Some (Some (7, 2)) ∧ args m !! 1 = Some (Some (9, 5)).
Proof. by vm_compute. Qed.
Example lv_reached : v_reached lv_val snd Nat.eqb (lv_run lv_ops lv_choices).
Proof. exists lv_ops, lv_choices. by vm_compute. Qed.
(** C14: both cases occur *)
Example C14_hit_case :
  match insert_value Nat.eqb (variant lv_val snd) true 0 (lv_run lv_ops lv_choices) [] with
  | Ret h m' _ => args m' !! 0 = Some (Some (7, 2)) ∧ length (fac m') = 1
  | _ => False
  end.
Proof. by vm_compute. Qed.
Example C14_miss_case :
  match insert_value Nat.eqb (variant lv_val snd) true 1 (lv_run lv_ops lv_choices) [] with
  | Ret h m' _ => args m' !! 1 = Some None ∧ length (fac m') = 2
  | _ => False
  end.
Proof. by vm_compute. Qed.
(** C12: an entry that stays while another is inserted *)
Example C12_stay_case :
  let m := lv_run lv_ops lv_choices in
  legal (variant lv_val snd) true m (OInsArgs 4) = true ∧
  ∃ h m', fac m = [h] ∧ after (exec Nat.eqb (variant lv_val snd) (OInsArgs 4) m []) m' ∧ h ∈ fac m'.
Proof.
  split; [by vm_compute|]. eexists _, _. split; [vm_compute; reflexivity|].
  split; [vm_compute; reflexivity|]. simpl. right. left.
Qed.
(** C13 *)
Definition pv_run (l : list op) (c : list bool) : mem :=
  match run_ops Nat.eqb (product lv_val) false l empty_mem c with Some m => m | None => empty_mem end.
Example pv_demo :
  let m := pv_run lv_ops lv_choices in length (fac m) = 1 ∧ length (made m) = 11 ∧ length (gone m) = 9.
Proof. by vm_compute. Qed.
Example pv_reached : p_reached lv_val Nat.eqb (pv_run lv_ops lv_choices).
Proof. exists lv_ops, lv_choices. by vm_compute. Qed.
(** everything destroyed: accounts equal *)
Example C12_all_gone :
  let m := lv_run [OInsArgs 1; OErase 2] [] in reps m = ∅ ∧ length (made m) = 4.
Proof. split; [apply map_size_empty_inv|]; by vm_compute. Qed.
Example C14_default_case :
  match run_ops Nat.eqb default_pol true [OInsArgs 3; OVal 3] empty_mem [] with
  | Some m => match insert_value Nat.eqb default_pol true 0 m [] with
              | Ret h m' _ => length (fac m) = 1 ∧ fac m' = fac m ∧ args m' !! 0 = Some None
              | _ => False end
  | None => False end.
Proof. by vm_compute. Qed.
(** C50: a load whose body throws *)
Example C50_case :
  match with_archived (K:=nat) (V:=nat) 5 (λ i, bind (read_key i) (λ _, may_throw)) empty_mem [false; false; true] with
  | Thr m _ => size (reps m) = 0 ∧ made m = [0] ∧ gone m = [0] | _ => False end.
Proof. by vm_compute. Qed.
Example C50_read_throws :
  match archived (K:=nat) (V:=nat) 5 empty_mem [false; true] with
  | Thr m _ => size (reps m) = 0 ∧ made m = [0] ∧ gone m = [0] | _ => False end.
Proof. by vm_compute. Qed.

Print Assumptions C12_lifetimes.
Print Assumptions C12_entries_stay.
Print Assumptions C13_lifetimes.
Print Assumptions C13_entries_stay.
Print Assumptions C13_get_key.
Print Assumptions C13_insert.
Print Assumptions C13_default_lifetimes.
Print Assumptions C14_rvalue.
Print Assumptions C14_lvalue.
Print Assumptions C14_default_always_taken.
Print Assumptions C50_construction.
Print Assumptions C50_destroyed_once.
