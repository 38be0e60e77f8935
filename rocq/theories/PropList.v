(** C59: factories written by users; lu_factory_class of
    test/test_custom_factory.cpp, which reorganizes itself when searched. *)
From Verif Require Import FactoryProps ListFactory Instances PropFactory PropCore.

Theorem C59_unique_set {K} (eq : K → K → bool) s : equivalence eq →
  freach (lu_factory eq) s → unique_set (lu_factory eq) eq s.
Proof. intros He. apply factory_unique_set; [done|]. apply lu_factory_spec. Qed.

Section rule.
  Context {K : Type} (eq : K → K → bool) (Heq : equivalence eq).
  Notation FS := (lu_factory eq).
  Implicit Types (s : fstate FS).
  Definition order s : list nat := (fcont s : list (nat * nat)).*1.

  Definition small s : Prop := NoDup (order s) ∧ ∀ a n, (a, n) ∈ (fcont s : list (nat * nat)) → n < 10.
  Lemma reach_small s : freach FS s → small s.
  Proof using Heq.
    induction 1 as [|s o s' Hr [Hn IH] Hl Hs]; [split; [constructor|by intros a n ?%elem_of_nil]|].
    pose proof (freach_inv FS eq Heq (lu_factory_spec eq) _ Hr) as [(_&_&H3) _].
    destruct o as [k a|a]; simpl in Hs.
    - unfold finsert in Hs. destruct (f_find FS (fcont s) _ k) as [h| |] eqn:Ef; simplify_eq; unfold small, order; simpl.
      + split; [by apply hit_nodup|]. intros b n Hb. unfold lu_hit in Hb. simpl in *. case_bool_decide as H10.
        * apply elem_of_cons in Hb as [?|Hb]; [simplify_eq; lia|]. unfold cut in Hb. apply elem_of_list_filter in Hb as [Hbh Hb]. simpl in Hbh.
          apply bump_in in Hb; [|done]. rewrite decide_False in Hb by done. by eapply IH.
        * pose proof Hb as Hb'. apply bump_in in Hb; [|done]. destruct (decide (b = h)) as [->|]; [|by eapply IH].
          destruct Hb as (m&Hm&->). pose proof (IH _ _ Hm). destruct (decide (m = 9)) as [->|]; [done|lia].
      + unfold lu_link. rewrite fmap_app. split.
        * apply NoDup_app. split_and!; [done| |apply NoDup_singleton]. intros b Hb ->%elem_of_list_singleton.
          apply H3, elem_of_dom in Hb as [? Hb]. unfold flegal in Hl. simpl in Hb. congruence.
        * intros b n [Hb|Hb%elem_of_list_singleton]%elem_of_app; [by eapply IH|]. simplify_eq. lia.
    - simplify_eq. unfold small, order, lu_unlink; simpl. split; [unfold lu_unlink; rewrite cut_addrs; by apply NoDup_filter|].
      intros b n [_ Hb]%elem_of_list_filter. by eapply IH.
  Qed.

  (** a tenth hit brings an element to the front, and leaves the others in
      their order; other hits change no order *)
  Theorem C59_rule s k a s' h : freach FS s → fmem s !! a = None → finsert FS s k a = Some (s', h) → h ≠ a →
    ∃ n, (h, n) ∈ (fcont s : list (nat * nat)) ∧
      if decide (n = 9) then order s' = h :: filter (λ b, b ≠ h) (order s) else order s' = order s.
  Proof using Heq.
    intros Hr Ha Hi Hne. destruct (reach_small s Hr) as [Hn Hs].
    pose proof (freach_inv FS eq Heq (lu_factory_spec eq) _ Hr) as [Hv _]. pose proof Hv as (_&_&H3).
    unfold finsert in Hi. destruct (f_find FS (fcont s) _ k) as [h'| |] eqn:Ef; simplify_eq.
    destruct (fi_found _ _ (lu_factory_spec eq) _ _ _ _ _ Hv Ef) as [Hin _]. apply H3 in Hin.
    apply elem_of_list_fmap in Hin as ([h' n]&->&Hin). exists n. split; [done|]. unfold order. simpl. case_decide as E.
    - subst n. unfold lu_hit. rewrite bool_decide_true; [by rewrite fmap_cons, cut_addrs, bump_addrs|].
      apply bump_in; [done|]. rewrite decide_True by done. by exists 9.
    - eapply hit_order; [done|done|lia].
  Qed.

  (** whatever else is looked up in between *)
  Theorem C59_tenth s a n hs : freach FS s → (a, n) ∈ (fcont s : list (nat * nat)) →
    (n + occ a (hs ++ [a])) mod 10 = 0 → head (hits (fcont s) (hs ++ [a])).*1 = Some a.
  Proof using Heq.
    intros Hr Ha Hm. destruct (reach_small s Hr) as [Hn Hs]. pose proof (Hs _ _ Ha) as Hlt.
    destruct (hits_count hs _ _ _ Hn Ha Hlt) as [H1 H2].
    unfold hits. rewrite fold_left_app. simpl. eapply hit_front; [exact H2|exact H1|].
    rewrite occ_app, occ_cons, occ_nil, decide_True, Nat.add_0_r, Nat.add_assoc in Hm by done.
    rewrite <- Nat.add_mod_idemp_l in Hm by done.
    assert ((n + occ a hs) mod 10 < 10) by (by apply Nat.mod_upper_bound). set (m := (n + occ a hs) mod 10) in *.
    destruct (decide (m = 9)) as [->|]; [done|]. rewrite Nat.mod_small in Hm by lia. lia.
  Qed.
End rule.

(** flyweights do not notice: any policy, any schedule *)
Theorem C59_flyweights {K A R V} (P : policy K A R V) (eq : K → K → bool) good cfg t0 :
  equivalence eq → policy_ok eq good P →
  (∀ ls, sched_ok cfg t0 ls → ∃ s, run P (lu_factory eq) cfg (init (lu_factory eq)) ls = Next s) ∧
  (∀ s x y hx rx hy ry, reachable P (lu_factory eq) cfg t0 s → value_of s x = Some (hx, rx) → value_of s y = Some (hy, ry) →
     (hx = hy ↔ eq (p_key P rx) (p_key P ry) = true)) ∧
  (∀ s ls s' x h r, reachable P (lu_factory eq) cfg t0 s → sched_ok cfg t0 ls → Forall (λ l, touches x l = false) ls →
     run P (lu_factory eq) cfg s ls = Next s' → value_of s x = Some (h, r) → value_of s' x = Some (h, r)).
Proof.
  intros He HP. pose proof (lu_factory_spec eq) as HF. split_and!.
  - intros ls. eapply C20_no_undefined_behaviour; done.
  - intros *. eapply C02_sharing; done.
  - intros *. eapply C03_stability; done.
Qed.

(** == must be an equivalence: with a key that is not equal to itself, like
    the NaN of floating-point numbers (here 0), every insertion adds an entry *)
Definition float_eq (k l : nat) : bool := bool_decide (k = l) && bool_decide (k ≠ 0).
Theorem C59_nan_refuted : ∃ s, freach (lu_factory float_eq) s ∧ fmem s !! 1 = Some 0 ∧ fmem s !! 2 = Some 0.
Proof.
  set (FS := lu_factory float_eq).
  exists (FState FS [(1, 0); (2, 0)] (<[2:=0]> (<[1:=0]> (∅ : gmap nat nat)))). split_and!; [|by vm_compute..].
  apply (fr_step FS (FState FS [(1, 0)] (<[1:=0]> (∅ : gmap nat nat))) (FInsert 0 2)); [|by vm_compute|by vm_compute].
  apply (fr_step FS (finit FS) (FInsert 0 1)); [constructor|by vm_compute|by vm_compute].
Qed.

(** Three entries, then ten hits of the last (17 is equivalent to 7): it goes
    to the front *)
Definition liFS : factory ikey := lu_factory ieq.
Definition warm : list label := call 1 (ONew 0 3 []) 100 ++ call 1 (ONew 1 4 []) 101 ++ call 2 (ONew 2 7 []) 102.
Definition more (k : nat) : list label := concat ((λ i, call (i mod 2) (ONew (10 + i) 17 []) 200) <$> seq 0 k).
Example C59_example : let s k := final iP liFS rc (warm ++ more k) in
  (cont (s 0) : list (nat * nat)) = [(100, 0); (101, 0); (102, 0)] ∧
  (cont (s 9) : list (nat * nat)) = [(100, 0); (101, 0); (102, 9)] ∧
  (cont (s 10) : list (nat * nat)) = [(102, 0); (100, 0); (101, 0)] ∧
  fst <$> value_of (s 10) 19 = Some 102.
Proof. vm_compute. split_and!; reflexivity. Qed.

Print Assumptions C59_unique_set.
Print Assumptions C59_rule.
Print Assumptions C59_tenth.
Print Assumptions C59_flyweights.
Print Assumptions C59_nan_refuted.
