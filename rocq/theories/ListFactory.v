(** User-defined factories: lu_factory_class of test/test_custom_factory.cpp
    28-75, a list searched from the front in which every tenth hit of an
    element moves it to the front.  (verbose_factory_class of
    example/custom_factory.cpp 36-73 is std::set<Entry,std::less<Key>>, as
    [SetFactory.v], with messages.) *)
From Verif Require Export Factory.

Section ListFactory.
  Context {K : Type} (eq : K → K → bool).
  Implicit Types (kv : addr → option K) (l : list (addr * nat)).

  (** 46-48: for(h=cont.begin();h!=cont.end();++h) *)
  Fixpoint lu_find l kv (k : K) : fres :=
    match l with
    | [] => NotFound
    | (a, _) :: l =>
        match kv a with
        | None => BadRead
        | Some ka => if eq ka k then Found a else lu_find l kv k
        end
    end.
  (** 49-52 *)
  Fixpoint bump l a : list (addr * nat) :=
    match l with
    | [] => []
    | (b, n) :: l => if decide (a = b) then (b, S n) :: l else (b, n) :: bump l a
    end.
  Definition cut l a : list (addr * nat) := filter (λ p, p.1 ≠ a) l.
  Definition lu_hit l a : list (addr * nat) :=
    let l := bump l a in
    if bool_decide ((a, 10) ∈ l) then (a, 0) :: cut l a else l.
  (** 56-59: push_back *)
  Definition lu_link l kv a : list (addr * nat) := l ++ [(a, 0)].
  (** 62-65 *)
  Definition lu_unlink l kv a : list (addr * nat) := cut l a.

  Definition lu_factory : factory K := Factory _ _ [] lu_find lu_hit lu_link lu_unlink.
End ListFactory.

Section proofs.
  Context {K : Type}.
  Implicit Types (kv : addr → option K) (l : list (addr * nat)).

  Definition lu_inv l kv (X : gset addr) : Prop :=
    (∀ a, a ∈ l.*1 → is_Some (kv a)) ∧ NoDup l.*1 ∧ ∀ a, a ∈ X ↔ a ∈ l.*1.

  Lemma bump_addrs l a : (bump l a).*1 = l.*1.
  Proof. induction l as [|[b n] l IH]; [done|]. simpl. case_decide; [done|]. rewrite !fmap_cons. by f_equal. Qed.
  Lemma cut_addrs l a : (cut l a).*1 = filter (λ b, b ≠ a) l.*1.
  Proof.
    unfold cut. induction l as [|[b n] l IH]; [done|]. rewrite fmap_cons, !filter_cons. simpl.
    case_decide; [|done]. rewrite fmap_cons. by f_equal.
  Qed.
  Lemma elem_of_cut l a b : b ∈ (cut l a).*1 ↔ b ≠ a ∧ b ∈ l.*1.
  Proof. by rewrite cut_addrs, elem_of_list_filter. Qed.
  Lemma hit_addrs l a : a ∈ l.*1 → ∀ b, b ∈ (lu_hit l a).*1 ↔ b ∈ l.*1.
  Proof.
    intros Ha b. unfold lu_hit. case_bool_decide; [|by rewrite bump_addrs].
    rewrite fmap_cons, elem_of_cons, elem_of_cut, bump_addrs. simpl.
    destruct (decide (b = a)) as [->|]; naive_solver.
  Qed.
  Lemma hit_nodup l a : NoDup l.*1 → NoDup (lu_hit l a).*1.
  Proof.
    intros H. unfold lu_hit. case_bool_decide; [|by rewrite bump_addrs].
    rewrite fmap_cons, cut_addrs, bump_addrs. simpl. constructor; [|by apply NoDup_filter].
    by intros [? _]%elem_of_list_filter.
  Qed.

  Definition lu_factory_spec (eq : K → K → bool) : factory_spec eq (lu_factory eq).
  Proof.
    refine (FactorySpec _ _ (lu_factory eq) lu_inv _ _ _ _ _ _ _ _ _).
    - intros kv. split_and!; simpl; [by intros a ?%elem_of_nil|constructor|]. set_solver.
    - intros c kv X a (H1&_&H3) Ha. by apply H1, H3.
    - intros c; simpl in c; intros kv X k a (_&_&H3). rewrite H3. clear H3. simpl. induction c as [|[b n] c IH]; [done|]. simpl.
      destruct (kv b) as [kb|] eqn:E; [|done]. destruct (eq kb k) eqn:Ek.
      + intros [= <-]. split; [by left|]. eauto.
      + intros [??]%IH. split; [by right|done].
    - intros c; simpl in c; intros kv X k a k' (_&_&H3) Hf Ha Hk. apply H3 in Ha. clear H3. simpl in Hf.
      induction c as [|[b n] c IH]; simpl in *; [by apply elem_of_nil in Ha|].
      destruct (kv b) as [kb|] eqn:E; [|done]. destruct (eq kb k) eqn:Ek; [done|].
      apply elem_of_cons in Ha as [->|Ha]; [congruence|by apply IH].
    - intros c; simpl in c; intros kv X k (H1&_&_). simpl. induction c as [|[b n] c IH]; [done|]. simpl.
      destruct (H1 b) as [kb ->]; [by left|]. destruct (eq kb k); [done|]. apply IH. intros a Ha. apply H1. by right.
    - intros c; simpl in c; intros kv X a (H1&H2&H3) Ha. apply H3 in Ha. simpl. split_and!.
      + intros b. rewrite hit_addrs by done. apply H1.
      + by apply hit_nodup.
      + intros b. by rewrite hit_addrs.
    - intros c; simpl in c; intros kv X a k (H1&H2&H3) Ha Hk _. simpl. unfold lu_link, lu_inv. rewrite fmap_app. simpl. split_and!.
      + intros b [Hb| ->%elem_of_list_singleton]%elem_of_app; [by apply H1|by eexists].
      + apply NoDup_app. split_and!; [done| |apply NoDup_singleton]. intros b Hb ->%elem_of_list_singleton. by apply Ha, H3.
      + intros b. rewrite elem_of_union, elem_of_singleton, elem_of_app, elem_of_list_singleton, H3. naive_solver.
    - intros c; simpl in c; intros kv X a (H1&H2&H3) Ha. simpl. split_and!.
      + intros b [_ Hb]%elem_of_cut. by apply H1.
      + unfold lu_unlink. rewrite cut_addrs. by apply NoDup_filter.
      + intros b. unfold lu_unlink. rewrite elem_of_difference, elem_of_singleton, elem_of_cut, H3. naive_solver.
    - intros c; simpl in c; intros kv kv' X (H1&H2&H3) Hv. split_and!; [|done|done].
      intros a Ha. destruct (H1 a Ha) as [k Hk]. destruct (Hv a k) as (k'&?&_); [by apply H3|done|]. by eexists.
  Defined.

  (** *** the list-update rule *)
  Definition hits l (hs : list addr) : list (addr * nat) := fold_left lu_hit hs l.

  Lemma bump_in l a b m : NoDup l.*1 → (b, m) ∈ bump l a ↔ (if decide (b = a) then ∃ n, (a, n) ∈ l ∧ m = S n else (b, m) ∈ l).
  Proof.
    induction l as [|[c n] l IH]; simpl; [case_decide; set_solver|]. intros [Hc Hn]%NoDup_cons.
    destruct (decide (a = c)) as [->|Hac]; [destruct (decide (b = c)) as [->|Hb]|destruct (decide (b = a)) as [->|Hb]].
    - rewrite elem_of_cons. split.
      + intros [[= ->]|H]; [exists n; split; [by left|done]|]. exfalso. apply Hc. apply elem_of_list_fmap. by exists (c, m).
      + intros (n'&[[= ->]|H]%elem_of_cons&->); [by left|]. exfalso. apply Hc. apply elem_of_list_fmap. by exists (c, n').
    - rewrite !elem_of_cons. split; intros [H|H]; try (by right); simplify_eq.
    - rewrite elem_of_cons, IH by done. split.
      + intros [H|(n'&H&->)]; [simplify_eq|]. exists n'. split; [by right|done].
      + intros (n'&[H|H]%elem_of_cons&->); [simplify_eq|]. right. by exists n'.
    - by rewrite !elem_of_cons, IH.
  Qed.
  Lemma in_fun l a n m : NoDup l.*1 → (a, n) ∈ l → (a, m) ∈ l → n = m.
  Proof.
    induction l as [|[b k] l IH]; [by intros _ ?%elem_of_nil|]. intros [Hb Hn]%NoDup_cons.
    intros [?|H1]%elem_of_cons [?|H2]%elem_of_cons; simplify_eq; [done| | |by apply IH].
    - exfalso. apply Hb. apply elem_of_list_fmap. by exists (b, m).
    - exfalso. apply Hb. apply elem_of_list_fmap. by exists (b, n).
  Qed.

  (** counters: hits modulo ten *)
  Lemma hit_count l a b n : NoDup l.*1 → (b, n) ∈ l → n < 10 →
    (b, if decide (b = a) then S n mod 10 else n) ∈ lu_hit l a.
  Proof.
    intros Hn Hb Hlt. unfold lu_hit.
    case_bool_decide as H.
    - apply bump_in in H; [|done]. rewrite decide_True in H by done. destruct H as (n'&H&[= <-]).
      destruct (decide (b = a)) as [->|Hba].
      + rewrite (in_fun _ _ _ _ Hn Hb H). by left.
      + right. unfold cut. apply elem_of_list_filter. split; [done|]. apply bump_in; [done|]. by rewrite decide_False.
    - apply bump_in; [done|]. destruct (decide (b = a)) as [->|Hba]; [|done]. exists n. split; [done|].
      apply Nat.mod_small. destruct (decide (n = 9)) as [->|]; [|lia]. exfalso. apply H. apply bump_in; [done|].
      rewrite decide_True by done. by exists 9.
  Qed.
  Lemma hits_count hs l b n : NoDup l.*1 → (b, n) ∈ l → n < 10 → (b, (n + occ b hs) mod 10) ∈ hits l hs ∧ NoDup (hits l hs).*1.
  Proof.
    revert l n. induction hs as [|a hs IH]; intros l n Hn Hb Hlt.
    - change (hits l []) with l. split; [|done]. change (occ b []) with 0. by rewrite Nat.add_0_r, Nat.mod_small.
    - change (hits l (a :: hs)) with (hits (lu_hit l a) hs). destruct (IH (lu_hit l a) (if decide (b = a) then S n mod 10 else n)) as [H1 H2];
        [by apply hit_nodup|by apply hit_count|case_decide; [by apply Nat.mod_upper_bound|done]|].
      split; [|done]. replace ((n + occ b (a :: hs)) mod 10) with (((if decide (b = a) then S n mod 10 else n) + occ b hs) mod 10); [done|].
      rewrite occ_cons. destruct (decide (b = a)).
      + rewrite Nat.add_mod_idemp_l by done. f_equal. lia.
      + done.
  Qed.
  Lemma hit_front l a n : NoDup l.*1 → (a, n) ∈ l → S n = 10 → head (lu_hit l a).*1 = Some a.
  Proof.
    intros Hn Ha Hd. unfold lu_hit. rewrite bool_decide_true; [done|]. apply bump_in; [done|].
    rewrite decide_True by done. by exists n.
  Qed.
  Lemma hit_order l a n : NoDup l.*1 → (a, n) ∈ l → S n ≠ 10 → (lu_hit l a).*1 = l.*1.
  Proof.
    intros Hn Ha Hd. unfold lu_hit. rewrite bool_decide_false; [apply bump_addrs|].
    intros H. apply bump_in in H; [|done]. rewrite decide_True in H by done. destruct H as (m&H&?).
    rewrite (in_fun _ _ _ _ Hn Ha H) in Hd. by apply Hd.
  Qed.
End proofs.
