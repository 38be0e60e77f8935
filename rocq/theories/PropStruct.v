(** C62: values made of flyweights share all common parts (example/composite.cpp:
    a list_impl is a string or a vector of flyweight<list_impl>).  The value of
    a flyweight is a tree; equal trees are the same entry. *)
From Verif Require Import SerializeProofs CoreRace Instances PropInner.

(** What the user sees: a label (a string, or that this is a list) and, in
    order, the trees of the flyweights inside. *)
Inductive tree (L : Type) := Tree (l : L) (ts : list (tree L)).
Global Arguments Tree {_} _ _.

Section Spec.
  Context {K A R V L : Type} (P : policy K A R V) (FS : factory K).
  Notation state := (state (R:=R) (K:=K) (A:=A) FS).
  (** [lab]: what a value holds beside flyweights; [leq]: its equality *)
  Context (lab : R → L) (leq : L → L → bool).

  Inductive shows (s : state) : addr → tree L → Prop :=
  | Shows h n ts : heap s !! h = Some n → Forall2 (shows s) (p_kids P (n_rep n)) ts → shows s h (Tree (lab (n_rep n)) ts).
  Inductive alike : tree L → tree L → Prop :=
  | Alike l l' ts ts' : leq l l' = true → Forall2 alike ts ts' → alike (Tree l ts) (Tree l' ts').
End Spec.

Section Struct.
  Context {K A R V L : Type}.
  Context (P : policy K A R V) (FS : factory K) (cfg : config).
  Context (eqv : K → K → bool) (good : R → Prop).
  Context (Heq : equivalence eqv) (HP : policy_ok eqv good P) (HF : factory_spec eqv FS).
  Context (t0 : tid).
  Context (lab : R → L) (leq : L → L → bool).
  (** keys are compared by label and, flyweight by flyweight, by address
      (flyweight.hpp 257-269: flyweights of the same type are compared by the
      addresses of their values) *)
  Context (Hkey : ∀ r r', eqv (p_key P r) (p_key P r') = leq (lab r) (lab r') && bool_decide (p_kids P r = p_kids P r')).

  Notation state := (state (R:=R) (K:=K) (A:=A) FS).
  Notation Inv := (Inv P FS cfg eqv good HF t0).
  Notation allowed := (allowed cfg t0).
  Notation cnt := (cnt P FS).
  Notation step := (step P FS cfg).
  Notation run := (run P FS cfg).
  Notation reachable := (reachable P FS cfg t0).
  Notation shows := (shows P FS lab).
  Notation alike := (alike leq).
  Implicit Types (s : state).

  Lemma kid_entry s h n a : Inv s → entry s h = Some n → a ∈ p_kids P (n_rep n) →
    0 < cnt s a ∧ ∃ m, entry s a = Some m ∧ heap s !! a = Some m ∧ n_stamp m < n_stamp n.
  Proof.
    intros HI Hn Ha. assert (Hc : 0 < cnt s a) by (by eapply (kid_cnt P FS s h n)). split; [done|].
    destruct (i_hnd _ _ _ _ _ (i_C _ _ _ _ _ _ _ _ HI) a Hc) as (m&Hm&_). exists m. split_and!; [done|by apply entry_heap in Hm as [??]|].
    exact (i_stamp _ _ _ _ _ _ (i_H _ _ _ _ _ _ _ _ HI) _ _ _ _ Hn Ha Hm).
  Qed.
  Lemma shows_inv s h n T : entry s h = Some n → shows s h T → ∃ ts, T = Tree (lab (n_rep n)) ts ∧ Forall2 (shows s) (p_kids P (n_rep n)) ts.
  Proof. intros [Hn _]%entry_heap HT. inversion HT as [h' n' ts Hn' Hts]; subst. assert (n' = n) as -> by congruence. eauto. Qed.

  (** induction over the parts of an entry *)
  Lemma parts_ind s (Q : addr → Prop) : Inv s →
    (∀ h n, entry s h = Some n → (∀ a, a ∈ p_kids P (n_rep n) → Q a) → Q h) → ∀ h n, entry s h = Some n → Q h.
  Proof.
    intros HI IH h n Hn. remember (n_stamp n) as d eqn:Ed. revert h n Hn Ed.
    induction (lt_wf d) as [d _ IHd]. intros h n Hn ->. eapply IH; [done|]. intros a Ha.
    destruct (kid_entry s h n a HI Hn Ha) as (_&m&Hm&_&Hlt). by eapply (IHd (n_stamp m)).
  Qed.

  Lemma shows_some s h n : Inv s → entry s h = Some n → ∃ T, shows s h T.
  Proof.
    intros HI Hn. revert h n Hn. eapply (parts_ind s (λ h, ∃ T, shows s h T) HI). intros h n Hn IH.
    assert (G : ∀ ks, (∀ a, a ∈ ks → ∃ T, shows s a T) → ∃ ts, Forall2 (shows s) ks ts).
    { induction ks as [|a ks IHk]; intros Hk; [by exists []|]. destruct (Hk a) as [T HT]; [by left|].
      destruct IHk as [ts Hts]; [intros b Hb; apply Hk; by right|]. exists (T :: ts). by constructor. }
    destruct (G _ IH) as [ts Hts]. exists (Tree (lab (n_rep n)) ts). constructor; [by apply entry_heap in Hn as [??]|done].
  Qed.
  Lemma lab_refl (r : R) : leq (lab r) (lab r) = true.
  Proof. pose proof (eqv_refl _ Heq (p_key P r)) as H. rewrite Hkey in H. by apply andb_true_iff in H as [??]. Qed.
  Lemma shows_alike s h n : Inv s → entry s h = Some n → ∀ T U, shows s h T → shows s h U → alike T U.
  Proof.
    intros HI Hn. revert h n Hn. eapply (parts_ind s (λ h, ∀ T U, shows s h T → shows s h U → alike T U) HI).
    intros h n Hn IH T U (ts&->&Hts)%(shows_inv s h n) (us&->&Hus)%(shows_inv s h n); [|done..]. constructor; [apply lab_refl|]. clear Hn.
    revert ts us Hts Hus. induction (p_kids P (n_rep n)) as [|a ks IHk]; intros ts us Hts Hus; inversion Hts; inversion Hus; subst; [done|].
    constructor; [eapply IH; [by left|done|done]|]. apply IHk; [|done|done]. intros b Hb. apply IH. by right.
  Qed.
  Lemma alike_same s h n : Inv s → entry s h = Some n → ∀ h' n' T U, entry s h' = Some n' → shows s h T → shows s h' U → alike T U → h = h'.
  Proof.
    intros HI Hn. revert h n Hn.
    eapply (parts_ind s (λ h, ∀ h' n' T U, entry s h' = Some n' → shows s h T → shows s h' U → alike T U → h = h') HI).
    intros h n Hn IH h' n' T U Hn' (ts&->&Hts)%(shows_inv s h n) (us&->&Hus)%(shows_inv s h' n') Ha; [|done..].
    inversion Ha as [? ? ? ? Hl Hall]; subst.
    assert (Hk : p_kids P (n_rep n) = p_kids P (n_rep n')).
    { assert (Hk' : ∀ a, a ∈ p_kids P (n_rep n') → ∃ m, entry s a = Some m) by (intros a Hin; destruct (kid_entry s h' n' a HI Hn' Hin) as (_&m&?&_); eauto).
      clear Hn Hn' Ha Hl. revert ts us IH Hts Hus Hall Hk'. generalize (p_kids P (n_rep n)) as ks, (p_kids P (n_rep n')) as ks'.
      induction ks as [|a ks IHk]; intros ks' ts us IH Hts Hus Hall Hk'; inversion Hts; subst; inversion Hall; subst; inversion Hus; subst; [done|].
      f_equal.
      - destruct (Hk' x) as [m Hm]; [by left|]. eapply IH; [by left|done|done|done|done].
      - eapply IHk; [|done|done|done|]; intros b Hb; [apply IH; by right|apply Hk'; by right]. }
    eapply (i_uniq _ _ _ _ _ _ (i_H _ _ _ _ _ _ _ _ HI)); [done|done|]. rewrite Hkey, Hl. by apply bool_decide_eq_true_2.
  Qed.

  (** ** C62 *)

  (** Every flyweight has a value that is a tree. *)
  Theorem C62_tree s x v : reachable s → value_of s x = Some v → ∃ T, shows s v.1 T.
  Proof.
    intros Hre Hx. pose proof (reach_inv P FS cfg eqv good Heq HP HF t0 s Hre) as HI. destruct v as [h r].
    apply (value_of_var P FS cfg eqv good HF t0) in Hx as (_&n&Hn&_); [|done]. by eapply shows_some.
  Qed.

  (** Two flyweights have the same tree exactly when they have the same
      address: comparing handles compares values of any depth. *)
  Theorem C62_shared s x y hx rx hy ry T U :
    reachable s → value_of s x = Some (hx, rx) → value_of s y = Some (hy, ry) → shows s hx T → shows s hy U →
    (hx = hy ↔ alike T U).
  Proof.
    intros Hre Hx Hy HT HU. pose proof (reach_inv P FS cfg eqv good Heq HP HF t0 s Hre) as HI.
    apply (value_of_var P FS cfg eqv good HF t0) in Hx as (_&n&Hn&_); [|done]. apply (value_of_var P FS cfg eqv good HF t0) in Hy as (_&m&Hm&_); [|done].
    split.
    - intros <-. by eapply shows_alike.
    - by eapply alike_same.
  Qed.

  Lemma shows_step s l s' h n : Inv s → allowed (label_tid l) → step s l = Next s' → entry s h = Some n →
    0 < cnt s h → ∀ T, shows s h T → shows s' h T.
  Proof.
    intros HI Hal Hs Hn. revert h n Hn. eapply (parts_ind s (λ h, 0 < cnt s h → ∀ T, shows s h T → shows s' h T) HI).
    intros h n Hn IH Hc T (ts&->&Hts)%(shows_inv s h n); [|done].
    destruct (kept_step P FS cfg eqv good Heq HP HF t0 s l s' h n HI Hal Hs Hc Hn) as (n'&Hn'&Hr). rewrite <- Hr. constructor.
    - by apply entry_heap in Hn' as [??].
    - rewrite Hr. assert (Hk : ∀ a, a ∈ p_kids P (n_rep n) → ∀ T, shows s a T → shows s' a T).
      { intros a Ha. apply IH; [done|]. by destruct (kid_entry s h n a HI Hn Ha) as [??]. }
      clear -Hts Hk. induction Hts as [|a t ks ts Ha Hts IHt]; constructor; [apply Hk; [by left|done]|]. apply IHt. intros b Hb. apply Hk. by right.
  Qed.

  (** The tree of a flyweight does not change, to any depth, while it is not
      assigned to, swapped or destroyed. *)
  Theorem C62_stable s ls s' x v T :
    reachable s → sched_ok cfg t0 ls → Forall (λ l, touches x l = false) ls → run s ls = Next s' →
    value_of s x = Some v → shows s v.1 T → value_of s' x = Some v ∧ shows s' v.1 T.
  Proof.
    intros Hre Hok Hto Hrun Hx HT. pose proof (reach_inv P FS cfg eqv good Heq HP HF t0 s Hre) as HI. destruct v as [h r].
    split; [exact (stability P FS cfg eqv good Heq HP HF t0 s ls s' x h r Hre Hok Hto Hrun Hx)|].
    apply (value_of_var P FS cfg eqv good HF t0) in Hx as (Hx&n&Hn&Hr&Hd); [|done]. simpl in *.
    enough (stays FS x h r (n_stamp n) s' ∧ shows s' h T) by naive_solver.
    eapply (run_ind P FS cfg eqv good Heq HP HF t0 (λ s, stays FS x h r (n_stamp n) s ∧ shows s h T) (λ l, touches x l = false));
      [|done|by eapply sched_allowed|done| |done].
    - intros s1 l s2 HI1 Hl Hto1 [Hst HT1] Hs1. split; [by eapply stays_step|]. destruct Hst as (Hx1&n1&Hn1&_).
      eapply (shows_step s1 l s2 h n1); [done|done|done|done|by eapply var_cnt|done].
    - split; [split; eauto|done].
  Qed.

  (** The tree of a new flyweight: the label asked for and the trees of the
      flyweights it was made from, whether its value was there before or not,
      and whatever other threads do meanwhile. *)
  Theorem C62_make s t x p ys ks ts r s1 ls s2 v :
    reachable s → (lck cfg = false → t = t0) → step s (LStart t (ONew x p ys)) = Next s1 →
    mapM (live s) ys = Some ks → p_make P p ks = Some r → p_kids P r = ks → Forall2 (shows s) ks ts →
    sched_ok cfg t0 ls → Forall (λ l, starts t l = false ∧ writes x l = false ∧ ∀ y, y ∈ ys → touches y l = false) ls →
    run s1 ls = Next s2 → stack s2 t = [] → value_of s2 x = Some v →
    ∃ l, leq l (lab r) = true ∧ shows s2 v.1 (Tree l ts).
  Proof.
    intros Hre Hal Hs Hks Hr Hkids Hts Hok Hls Hrun Hst Hv.
    assert (Hre1 : reachable s1) by exact (reach_start P FS cfg t0 s t _ s1 Hre Hal Hs).
    pose proof (reach_run P FS cfg t0 s1 ls s2 Hre1 Hok Hrun) as Hre2.
    pose proof (reach_inv P FS cfg eqv good Heq HP HF t0 s Hre) as HI.
    pose proof (reach_inv P FS cfg eqv good Heq HP HF t0 s2 Hre2) as HI2.
    (* the key *)
    assert (HB : building P FS eqv s1 t x (p_key P r)).
    { clear -Hs Hks Hr. simpl in Hs. destruct (stack s t); [|done]. simpl in Hs. destruct (vars s !! x); [done|]. rewrite Hks in Hs.
      destruct (copy_handles FS cfg s ks); [|done]. rewrite Hr in Hs. injection Hs as <-.
      left. exists (Some (p_key P r)). rewrite stack_set, decide_True by done. split; [done|]. by right. }
    assert (HB2 : building P FS eqv s2 t x (p_key P r)).
    { assert (H : ∀ ls s1, reachable s1 → sched_ok cfg t0 ls → Forall (λ l, starts t l = false ∧ writes x l = false ∧ ∀ y, y ∈ ys → touches y l = false) ls →
        building P FS eqv s1 t x (p_key P r) → run s1 ls = Next s2 → building P FS eqv s2 t x (p_key P r)); [|by eapply (H ls s1)].
      clear -Heq HP HF. induction ls as [|l ls IH]; intros s1 Hre1 Hok Hls HB; cbn [Core.run]; [by intros [= <-]|].
      apply Forall_cons in Hls as [(H1&H2&_) Hls].
      assert (Hl : allowed (label_tid l)) by (intros E; by apply Hok in E; apply Forall_cons in E as [??]).
      assert (Hok' : sched_ok cfg t0 ls) by (intros E; apply Hok in E; by apply Forall_cons in E as [??]).
      destruct (step s1 l) as [s3| |] eqn:E; [|by apply IH|done]. apply IH; [by eapply reach_step|done|done|].
      by eapply (building_step P FS cfg eqv good Heq HP HF t0 s1 l s3). }
    destruct (building_end P FS cfg eqv t0 s2 t x _ Hre2 HB2 Hst) as [Hno|(k&Hk&Ek)]; [unfold value_of in Hv; by rewrite Hno in Hv|].
    unfold key_of in Hk. rewrite Hv in Hk. destruct v as [h rx]. injection Hk as <-. rewrite Hkey in Ek.
    apply andb_true_iff in Ek as [El Ek%bool_decide_eq_true]. exists (lab rx). split; [done|].
    apply (value_of_var P FS cfg eqv good HF t0) in Hv as (_&n&Hn&<-&_); [|done]. simpl. constructor; [by apply entry_heap in Hn as [??]|].
    rewrite Ek, Hkids. clear -Hts Hks Hs Hrun Hok Hls Hre HI Hal Heq HP HF. apply mapM_Some in Hks.
    (* the parts: still held by the objects they came from *)
    assert (G : ∀ y a T, y ∈ ys → live s y = Some a → shows s a T → shows s2 a T).
    { intros y a T Hy Hl HT. destruct (live_entry P FS cfg eqv good HF t0 s y a HI Hl) as (m&Hm&Hd). apply live_vars in Hl.
      assert (Hvy : value_of s y = Some (a, n_rep m)) by (apply (value_of_var P FS cfg eqv good HF t0); eauto).
      refine (proj2 (C62_stable s (LStart t (ONew x p ys) :: ls) s2 y (a, n_rep m) T Hre _ _ _ Hvy HT)).
      - intros E. constructor; [by apply Hal|by apply Hok].
      - constructor; [done|]. eapply Forall_impl; [done|]. intros l (_&_&H). by apply H.
      - cbn [Core.run]. by rewrite Hs. }
    clear -G Hks Hts. revert ts Hts G. induction Hks as [|y a ys ks Hy Hks IH]; intros ts Hts G; inversion Hts; subst; constructor.
    - eapply G; [by left|done|done].
    - apply IH; [done|]. intros z b T Hz. apply G. by right.
  Qed.

  (** Printing a value (composite.cpp 80-128): get() of the value, of the
      flyweights inside, and so on, to depth [d]. *)
  Fixpoint view (s : state) (d : nat) (h : addr) : option (tree L) :=
    match d with
    | 0 => None
    | S d => match heap s !! h with
             | Some n => Tree (lab (n_rep n)) <$> mapM (view s d) (p_kids P (n_rep n))
             | None => None
             end
    end.
  Definition older s (st : nat) : gmap addr (node (R:=R)) := filter (λ p, n_stamp p.2 < st) (heap s).
  Lemma older_lt s h n a m : heap s !! a = Some m → n_stamp m < n_stamp n → heap s !! h = Some n →
    size (older s (n_stamp m)) < size (older s (n_stamp n)).
  Proof.
    intros Ha Hlt Hh. rewrite <- !size_dom. apply subset_size. split.
    - intros b. rewrite !elem_of_dom. unfold older. intros [k Hk]. apply map_filter_lookup_Some in Hk as [Hk ?]. simpl in *.
      exists k. apply map_filter_lookup_Some. split; [done|]. simpl. lia.
    - intros Hsub. assert (Hin : a ∈ dom (older s (n_stamp n))).
      { apply elem_of_dom. exists m. apply map_filter_lookup_Some. done. }
      apply Hsub, elem_of_dom in Hin as [k Hk]. apply map_filter_lookup_Some in Hk as [Hk ?]. simpl in *. assert (k = m) as -> by congruence. lia.
  Qed.
  Lemma view_shows s h n : Inv s → entry s h = Some n → ∀ d T, shows s h T → size (older s (n_stamp n)) < d → view s d h = Some T.
  Proof.
    intros HI Hn. revert h n Hn.
    enough (G : ∀ h n, entry s h = Some n → ∀ n, entry s h = Some n → ∀ d T, shows s h T → size (older s (n_stamp n)) < d → view s d h = Some T) by eauto.
    apply (parts_ind s (λ h, ∀ n, entry s h = Some n → ∀ d T, shows s h T → size (older s (n_stamp n)) < d → view s d h = Some T) HI).
    intros h n0 Hn0 IH n Hn d T (ts&->&Hts)%(shows_inv s h n) Hd; [|done]. assert (n0 = n) as -> by congruence.
    assert (Hh : heap s !! h = Some n) by (by apply entry_heap in Hn as [??]). destruct d as [|d]; [lia|]. simpl. rewrite Hh.
    assert (mapM (view s d) (p_kids P (n_rep n)) = Some ts) as ->; [|done]. apply mapM_Some.
    assert (Hk : ∀ a T, a ∈ p_kids P (n_rep n) → shows s a T → view s d a = Some T).
    { intros a T Ha HT. destruct (kid_entry s h n a HI Hn Ha) as (_&m&Hm&Hma&Hlt). apply (IH a Ha m); [done|done|].
      pose proof (older_lt s h n a m Hma Hlt Hh). lia. }
    clear -Hts Hk. induction Hts as [|a T ks ts Ha Hts IHt]; constructor; [apply Hk; [by left|done]|]. apply IHt. intros b U Hb. apply Hk. by right.
  Qed.
  Theorem C62_print s x v d : reachable s → value_of s x = Some v → size (heap s) ≤ d → ∃ T, shows s v.1 T ∧ view s d v.1 = Some T.
  Proof.
    intros Hre Hx Hd. pose proof (reach_inv P FS cfg eqv good Heq HP HF t0 s Hre) as HI. destruct v as [h r].
    apply (value_of_var P FS cfg eqv good HF t0) in Hx as (_&n&Hn&_); [|done]. destruct (shows_some s h n HI Hn) as [T HT]. exists T. split; [done|].
    eapply view_shows; [done|done|done|]. eapply Nat.lt_le_trans; [|done]. assert (Hh : heap s !! h = Some n) by (by apply entry_heap in Hn as [??]).
    rewrite <- !size_dom. apply subset_size. split.
    - intros b. rewrite !elem_of_dom. intros [k Hk]. apply map_filter_lookup_Some in Hk as [Hk _]. eauto.
    - intros Hsub. assert (Hin : h ∈ dom (heap s)) by (apply elem_of_dom; eauto).
      apply Hsub, elem_of_dom in Hin as [k Hk]. apply map_filter_lookup_Some in Hk as [Hk ?]. simpl in *. assert (k = n) as -> by congruence. lia.
  Qed.
End Struct.

(** ** Example: lists of strings and lists, composite.cpp *)
Definition ckey : Type := option nat * list addr.           (* a string (a number here), or a list *)
Definition cmk (l : option nat) (ks : list addr) : option ckey :=
  match l, ks with Some _, _ :: _ => None | _, _ => Some (l, ks) end.
Definition ceq (k l : ckey) : bool := bool_decide (k.1 = l.1) && bool_decide (k.2 = l.2).
Definition chash (k : ckey) : nat := match k.1 with Some n => n | None => foldr plus 0 k.2 end.   (* 55-78 *)
Definition cP : policy ckey (option nat) ckey ckey := default_policy cmk snd.
Definition cFS : factory ckey := hashed_factory chash ceq 1 igrow.
Lemma ceq_equivalence : equivalence ceq.
Proof.
  unfold ceq. split.
  - intros k. by rewrite !bool_decide_true.
  - intros k l [H1%bool_decide_eq_true H2%bool_decide_eq_true]%andb_true_iff. by rewrite !bool_decide_true.
  - intros k l m [H1%bool_decide_eq_true H2%bool_decide_eq_true]%andb_true_iff [H3%bool_decide_eq_true H4%bool_decide_eq_true]%andb_true_iff.
    rewrite !bool_decide_true; [done|congruence|congruence].
Qed.
Lemma cP_ok : policy_ok ceq (λ _, True) cP.
Proof. apply default_policy_ok. intros a ks k. unfold cmk. repeat case_match; intros; by simplify_eq. Qed.
Definition cHF : factory_spec ceq cFS.
Proof.
  apply hashed_factory_spec; [apply ceq_equivalence|]. intros k l [H1%bool_decide_eq_true H2%bool_decide_eq_true]%andb_true_iff.
  unfold chash. by rewrite H1, H2.
Defined.
Lemma cP_keys (r r' : ckey) : ceq (p_key cP r) (p_key cP r') = bool_decide (r.1 = r'.1) && bool_decide (p_kids cP r = p_kids cP r').
Proof. done. Qed.

(** Thread 1 makes ((1 2) 1) as 4 and thread 2 makes it as 14, from its own
    strings; 5 is ((1 2) 2). *)
Definition ccall (t : tid) (o : op (A:=option nat)) (a : addr) : list label := LStart t o :: replicate 40 (LRun t (Choice a false)).
Definition parsed : list label :=
  ccall 1 (ONew 1 (Some 1) []) 101 ++ ccall 2 (ONew 11 (Some 1) []) 111 ++ ccall 1 (ONew 2 (Some 2) []) 102 ++ ccall 2 (ONew 12 (Some 2) []) 112 ++
  [LStart 1 (ONew 3 None [1; 2]); LStart 2 (ONew 13 None [11; 12])] ++
  concat (replicate 20 [LRun 1 (Choice 103 false); LRun 2 (Choice 113 false)]) ++
  ccall 2 (ONew 14 None [13; 11]) 114 ++ ccall 1 (ONew 4 None [3; 1]) 104 ++ ccall 1 (ONew 5 None [3; 2]) 105 ++
  ccall 1 (ODestroy 1) 0 ++ ccall 1 (ODestroy 2) 0 ++ ccall 1 (ODestroy 3) 0.
Example C62_parsed : let s := final cP cFS rc parsed in
  is_next (run cP cFS rc (init cFS) parsed) = true ∧ size (heap s) = 5 ∧
  view cP cFS fst s 5 (default 0 (live s 4)) = Some (Tree None [Tree None [Tree (Some 1) []; Tree (Some 2) []]; Tree (Some 1) []]) ∧
  view cP cFS fst s 5 (default 0 (live s 5)) = Some (Tree None [Tree None [Tree (Some 1) []; Tree (Some 2) []]; Tree (Some 2) []]) ∧
  is_Some (live s 4) ∧ live s 4 = live s 14 ∧ bool_decide (live s 4 = live s 5) = false ∧ live s 1 = None.
Proof. vm_compute. split_and!; try reflexivity. by eexists. Qed.
(** [C62_make] at work: the list (2 1), while thread 2 makes (1 2) again *)
Example C62_made : let s := final cP cFS rc parsed in
  let l1 := LStart 1 (ONew 6 None [12; 11]) in
  let ls := [LStart 2 (ONew 16 None [11; 12])] ++ concat (replicate 20 [LRun 1 (Choice 106 false); LRun 2 (Choice 116 false)]) in
  let s1 := next cP cFS rc s l1 in let s2 := nexts cP cFS rc s1 ls in
  step cP cFS rc s l1 = Next s1 ∧ run cP cFS rc s1 ls = Next s2 ∧ stack s2 1 = [] ∧
  mapM (live s) [12; 11] = Some [102; 101] ∧ p_make cP None [102; 101] = Some (None, [102; 101]) ∧
  Forall (λ l, starts 1 l = false ∧ writes 6 l = false ∧ ∀ y, y ∈ [12; 11] → touches y l = false) ls ∧
  view cP cFS fst s2 6 (default 0 (live s2 6)) = Some (Tree None [Tree (Some 2) []; Tree (Some 1) []]).
Proof.
  split; [apply next_ok; vm_compute; reflexivity|]. split; [apply nexts_ok; vm_compute; reflexivity|].
  split; [vm_compute; reflexivity|]. split; [vm_compute; reflexivity|]. split; [done|]. split; [|vm_compute; reflexivity].
  simpl. repeat (constructor; [split_and!; [done|done|intros y _; done]|]). constructor.
Qed.

Print Assumptions C62_tree.
Print Assumptions C62_shared.
Print Assumptions C62_stable.
Print Assumptions C62_make.
Print Assumptions C62_print.
