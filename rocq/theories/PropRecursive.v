(** C18 and C19: value constructors that create flyweights of their own type. *)
From Verif Require Export RecursiveProofs.

(** what the constructors and keys of a well-founded recursive definition satisfy *)
Record recursive_def {K V : Type} (body : nat → K → @cprog K V) (eqv : K → K → bool) (kx : K → V → K)
    (den : K → V) (lt : K → K → Prop) : Prop := {
  rd_eqv : equivalence eqv;
  rd_wf : well_founded lt;
  rd_trans k1 k2 k3 : lt k1 k2 → lt k2 k3 → lt k1 k3;
  rd_lt k1 k1' k2 k2' : eqv k1 k1' = true → eqv k2 k2' = true → lt k1 k2 → lt k1' k2';
  rd_den k k' : eqv k k' = true → den k = den k';
  rd_body n k : follows den lt k (body n k);
  rd_kx k : eqv (kx k (den k)) k = true;
}.

Section Recursive.
  Context {K V : Type} (body : nat → K → @cprog K V) (trk : bool) (eqv : K → K → bool) (kx : K → V → K).
  Context (den : K → V) (lt : K → K → Prop) (Hrd : recursive_def body eqv kx den lt).
  Notation urun := (urun body trk eqv kx).
  Notation ustep := (ustep body trk eqv kx).
  Notation usr := (usr (K:=K) (V:=V)).
  Notation by_def L := (L body trk eqv kx den lt (rd_eqv _ _ _ _ _ Hrd) (rd_wf _ _ _ _ _ Hrd) (rd_trans _ _ _ _ _ Hrd) (rd_lt _ _ _ _ _ Hrd) (rd_den _ _ _ _ _ Hrd) (rd_body _ _ _ _ _ Hrd) (rd_kx _ _ _ _ _ Hrd)).
  Definition reach (t : usr) : Prop := ∃ l n, urun n l u_init = TNext t.

  Lemma reach_inv t : reach t → TInv trk eqv den lt t.
  Proof. intros (l&n&Hr). refine (by_def (@urun_inv K V) _ _ _ _ _ Hr). apply tinv_init. Qed.
  Lemma urun_snoc n l o (t : usr) : urun n (l ++ [o]) t =
    match urun n l t with TNext t' => match ustep n o t' with TThrow t2 => TNext t2 | r => r end | r => r end.
  Proof.
    revert t. induction l as [|o' l IH]; intros t; simpl; [by destruct (ustep n o t)|].
    destruct (ustep n o' t); try done; apply IH.
  Qed.

  Theorem C18_no_undefined_behaviour l : (∃ N, ∀ n, N ≤ n → ∃ t, urun n l u_init = TNext t) ∧ ∀ n, urun n l u_init ≠ TUndef.
  Proof.
    destruct (by_def (@urun_ok K V) l u_init (tinv_init _ _ _ _)) as (t&N&_&Hn).
    split; [exists N; intros n Hle; exists t; by apply Hn|].
    intros n Hu. assert (E : urun (n `max` N) l u_init = urun n l u_init) by (apply mono_urun; [lia|by rewrite Hu]).
    rewrite Hn, Hu in E by lia. done.
  Qed.

  Theorem C18_value t o : reach t →
    ∃ N, (∀ n m, N ≤ n → N ≤ m → ustep n o t = ustep m o t) ∧
         match ustep N o t with
         | TNext t' => reach t' ∧ direct den o (u_get t) (u_get t')
         | TThrow t' => reach t' ∧ (∀ x, u_get t' x = u_get t x) ∧ (∃ x k, o = UNew x k ∧ u_get t x = None)
         | _ => False
         end.
  Proof.
    intros Hre. pose proof (reach_inv t Hre) as HI. destruct Hre as (l&n0&Hl).
    destruct (by_def (@ustep_ok K V) o t HI) as (r&N&Hr&Hn).
    exists (N `max` n0). split; [intros n m ??; by rewrite !Hn by lia|]. rewrite Hn by lia.
    assert (Hl' : urun (N `max` n0) (l ++ [o]) u_init = match r with TThrow t2 => TNext t2 | r => r end).
    { rewrite urun_snoc. rewrite (mono_urun body trk eqv kx n0 (N `max` n0) l u_init) by (try lia; by rewrite Hl). rewrite Hl. simpl. rewrite Hn by lia. by destruct r. }
    destruct r as [t'|t'| |]; [| |done|done].
    - destruct Hr as [_ Hd]. split; [|done]. by exists (l ++ [o]), (N `max` n0).
    - destruct Hr as (_&Hg&He). split_and!; [|done|done]. by exists (l ++ [o]), (N `max` n0).
  Qed.

  Theorem C18_no_exception t o n : (∀ i k, nothrow (body i k)) → ∀ t', ustep n o t ≠ TThrow t'.
  Proof. intros Hnt. by apply ustep_nothrow. Qed.

  Lemma filter_one {A} (P : A → Prop) `{∀ x, Decision (P x)} (l : list A) :
    (∀ i j x y, l !! i = Some x → l !! j = Some y → P x → P y → i = j) → length (filter P l) ≤ 1.
  Proof.
    induction l as [|a l IH]; intros Hl; [simpl; lia|]. rewrite filter_cons. case_decide as Ha.
    - destruct (filter P l) as [|y q] eqn:E; [simpl; lia|].
      assert (y ∈ filter P l) as [Hy [j Hj]%elem_of_list_lookup]%elem_of_list_filter by (rewrite E; left).
      specialize (Hl 0 (S j) a y eq_refl Hj Ha Hy). lia.
    - apply IH. intros i j x y Hi Hj Hx Hy. specialize (Hl (S i) (S j) x y Hi Hj Hx Hy). lia.
  Qed.

  Theorem C18_once t : trk = false → reach t → ∀ k, times eqv k (t_st t) ≤ 1.
  Proof.
    intros Ht Hre k. pose proof (reach_inv t Hre) as HI. apply filter_one. intros i j [h1 k1] [h2 k2] H1 H2 E1 E2. simpl in *.
    pose proof (rd_eqv _ _ _ _ _ Hrd) as Heq. eapply log_once; [exact Heq|exact Ht|exact HI|exact H1|exact H2|].
    eapply (eqv_trans _ Heq); [exact E1|]. by apply (eqv_sym _ Heq).
  Qed.

  (** ... and it has been constructed if a flyweight for the key was created *)
  Theorem C18_once_created t x k t' n : trk = false → reach t → u_get t x = None →
    ustep n (UNew x k) t = TNext t' → times eqv k (t_st t') = 1.
  Proof.
    intros Ht Hre Hx Hs. pose proof (reach_inv t Hre) as HI.
    assert (Hre' : reach t').
    { destruct Hre as (l&n0&Hl). exists (l ++ [UNew x k]), (n `max` n0). rewrite urun_snoc.
      rewrite (mono_urun body trk eqv kx n0 (n `max` n0) l u_init) by (try lia; by rewrite Hl). rewrite Hl.
      rewrite (mono_ustep body trk eqv kx n (n `max` n0)) by (try lia; by rewrite Hs). by rewrite Hs. }
    pose proof (C18_once t' Ht Hre' k) as Hle. pose proof (reach_inv t' Hre') as HI'.
    assert (0 < times eqv k (t_st t')); [|lia].
    destruct (get_none trk eqv den lt t x HI) as [Hv _]. specialize (Hv Hx).
    simpl in Hs. rewrite Hv in Hs.
    destruct (by_def (@create_ok K V) k [] (held t) (t_st t) HI) as (r&N&Hr&Hn).
    { intros o e Ho. by apply elem_of_nil in Ho. }
    pose proof (mono_create body trk eqv kx n (n `max` N) k (t_st t) ltac:(lia)) as Hm. rewrite (Hn (n `max` N)) in Hm by lia.
    destruct (create body trk eqv kx n k (t_st t)) as [h s|s| |]; try done. rewrite Hm in Hr by done. injection Hs as <-.
    destruct Hr as (HI1&_&_&e&He&Ee). destruct (i_log _ _ _ _ _ _ _ HI1) as (_&L2&L3).
    pose proof (L3 h e He (not_elem_of_nil _)) as Hin. apply elem_of_list_fmap in Hin as ([h' k']&E&Hin). simpl in E. subst h'.
    destruct (L2 h k' Hin) as (_&_&L4). destruct (L4 Ht) as (e'&He'&Ee'). rewrite He in He'. injection He' as <-.
    unfold times. simpl. destruct (filter _ (log s)) as [|p q] eqn:Ef; [|simpl; lia]. exfalso.
    assert ((h, k') ∈ filter (λ p : nat * K, eqv p.2 k = true) (log s)) as Hf.
    { apply elem_of_list_filter. split; [|done]. simpl. pose proof (rd_eqv _ _ _ _ _ Hrd) as Heq.
      eapply (eqv_trans _ Heq); [|exact Ee]. by apply (eqv_sym _ Heq). }
    rewrite Ef in Hf. by apply elem_of_nil in Hf.
  Qed.

  (** no constructor call is wasted *)
  Theorem C18_calls t : (∀ i k, nothrow (body i k)) → reach t → calls (t_st t) = length (log (t_st t)).
  Proof.
    intros Hnt (l&n&Hl). pose proof (urun_calls body trk eqv kx n l Hnt _ _ Hl) as Hc. unfold same_calls in Hc. simpl in Hc. lia.
  Qed.

  (** with refcounted the factory holds what is in use, and nothing in the end *)
  Theorem C18_reclaimed t : trk = true → reach t →
    (∀ h, is_Some (ents (t_st t) !! h) ↔ live (map_to_list (t_vars t)).*2 (t_st t) h) ∧ (t_vars t = ∅ → ents (t_st t) = ∅).
  Proof.
    intros Ht Hre. pose proof (reach_inv t Hre) as HI.
    assert (Hlive : ∀ h, is_Some (ents (t_st t) !! h) ↔ live (map_to_list (t_vars t)).*2 (t_st t) h).
    { intros h. split.
      - intros [e He]. exact (live_ok trk eqv den lt (rd_wf _ _ _ _ _ Hrd) (rd_trans _ _ _ _ _ Hrd) _ _ Ht HI h e He).
      - induction 1 as [h Hh|h h' e _ _ He Hin].
        + destruct (i_held _ _ _ _ _ _ _ HI h Hh) as (e&He&_). eauto.
        + destruct (i_built _ _ _ _ _ _ _ HI h e He (not_elem_of_nil _)) as (_&_&B3). destruct (B3 h' Hin) as (e'&He'&_). eauto. }
    split; [done|]. intros Hv. apply map_empty. intros h. apply eq_None_not_Some. intros Hs%Hlive. rewrite Hv, map_to_list_empty in Hs.
    by apply live_nil in Hs.
  Qed.
End Recursive.

(** ** C19 *)
(** a constructor re-entered for an equivalent key, the inner call throwing *)
Theorem C19_reentry_throws {K V} (body : nat → K → @cprog K V) trk eqv kx k k' f :
  eqv k k' = true → body 0 k = CNew k' f → body 1 k = CThrow →
  ∀ n, 2 ≤ n → urun body trk eqv kx n [UNew 0 k] u_init = TUndef.
Proof.
  intros Hk H0 H1 n Hn. destruct n as [|[|n]]; [lia|lia|]. simpl. unfold Recursive.find. simpl. rewrite map_to_list_empty. simpl.
  unfold visit at 1. simpl. rewrite lookup_insert. rewrite H0. simpl. unfold Recursive.find. simpl.
  rewrite insert_empty, map_to_list_singleton, filter_cons. simpl. rewrite decide_True by done. simpl.
  unfold visit. simpl. rewrite lookup_singleton. rewrite H1. simpl.
  assert (Hd : ∀ s : st (K:=K) (V:=V), let_go trk [] s = Some s) by (intros s; unfold let_go; destruct (fuel_for [] s), trk; done).
  rewrite !Hd. simpl. rewrite lookup_singleton. simpl. rewrite delete_singleton. simpl. rewrite Hd. simpl. by rewrite lookup_empty.
Qed.

(** ... and the same without exceptions: the value is built over a built one *)
Theorem C19_reentry_returns {K V} (body : nat → K → @cprog K V) trk eqv kx k k' f v v' :
  eqv k k' = true → body 0 k = CNew k' f → body 1 k = CRet v [] → f v = CRet v' [] →
  ∀ n, 2 ≤ n → urun body trk eqv kx n [UNew 0 k] u_init = TUndef.
Proof.
  intros Hk H0 H1 Hf n Hn. destruct n as [|[|n]]; [lia|lia|]. simpl. unfold Recursive.find. simpl. rewrite map_to_list_empty. simpl.
  unfold visit at 1. simpl. rewrite lookup_insert. rewrite H0. simpl. unfold Recursive.find. simpl.
  rewrite insert_empty, map_to_list_singleton, filter_cons. simpl. rewrite decide_True by done. simpl.
  unfold visit. simpl. rewrite lookup_singleton. rewrite H1. simpl.
  assert (Hd : ∀ s : st (K:=K) (V:=V), let_go trk [] s = Some s) by (intros s; unfold let_go; destruct (fuel_for [] s), trk; done).
  destruct trk eqn:Ht; rewrite Hd; simpl; rewrite lookup_singleton; simpl.
  - unfold add_ref. simpl. rewrite insert_singleton, lookup_singleton. simpl. rewrite insert_singleton, lookup_singleton. simpl. rewrite Hf. simpl.
    unfold let_go. simpl. rewrite lookup_singleton. simpl. rewrite delete_singleton.
    unfold fuel_for. simpl. rewrite lookup_empty. done.
  - rewrite insert_singleton, lookup_singleton. rewrite Hf. simpl.
    by rewrite lookup_singleton.
Qed.

(** The claim for all constructors that re-enter is false. *)
Theorem C19_refuted : ∃ (body : nat → nat → @cprog nat nat) k, (∃ f, body 0 k = CNew k f) ∧
  ∀ trk n, 2 ≤ n → urun body trk Nat.eqb (λ k _, k) n [UNew 0 k] u_init = TUndef.
Proof.
  exists (λ n k, if decide (n = 0) then CNew k (λ _, CThrow) else CThrow), 0. split; [eexists; done|].
  intros trk n Hn. by apply (C19_reentry_throws _ _ _ _ 0 0 (λ _, CThrow)).
Qed.

(** ** Cases *)
(** example/fibonacci.cpp *)
Definition fib_body (n k : nat) : @cprog nat nat :=
  if decide (k < 2) then CRet k [] else CNew (k - 1) (λ a, CNew (k - 2) (λ b, CRet (a + b) [])).
Fixpoint fib (n : nat) : nat := match n with S (S m as p) => fib p + fib m | 0 => 0 | _ => 1 end.
Lemma fib_def : recursive_def fib_body Nat.eqb (λ k _, k) fib Nat.lt.
Proof.
  split.
  - split; [apply Nat.eqb_refl|by intros x y ?%Nat.eqb_eq; apply Nat.eqb_eq|].
    intros x y z ?%Nat.eqb_eq ?%Nat.eqb_eq. apply Nat.eqb_eq. congruence.
  - apply lt_wf.
  - intros ???. unfold Nat.lt. lia.
  - intros k1 k1' k2 k2' ->%Nat.eqb_eq ->%Nat.eqb_eq. done.
  - by intros k k' ->%Nat.eqb_eq.
  - intros n k. unfold fib_body. case_decide as Hk.
    + simpl. destruct k as [|[|k]]; [done|done|lia].
    + destruct k as [|[|k]]; [lia|lia|]. simpl. rewrite Nat.sub_0_r. unfold Nat.lt. split_and!; [lia|lia|done].
  - intros k. apply Nat.eqb_refl.
Qed.
(** run, then look *)
Definition after (r : tres (K:=nat) (V:=nat)) (P : usr → Prop) : Prop := match r with TNext t => P t | _ => False end.
Example C18_fib : after (urun fib_body false Nat.eqb (λ k _, k) 20 [UNew 0 10; UNew 1 7; UNew 2 12] u_init) (λ t,
  u_get t 0 = Some 55 ∧ u_get t 1 = Some 13 ∧ u_get t 2 = Some 144 ∧
  calls (t_st t) = 13 ∧ times Nat.eqb 7 (t_st t) = 1).
Proof. vm_compute. split_and!; reflexivity. Qed.
Example C18_fib_refcounted : after (urun fib_body true Nat.eqb (λ k _, k) 20 [UNew 0 7; UCopy 1 0] u_init) (λ t,
  u_get t 1 = Some 13 ∧ size (ents (t_st t)) = 1 ∧ calls (t_st t) = 41).
Proof. vm_compute. split_and!; reflexivity. Qed.

(** a value that keeps flyweights of smaller keys (modulo 10), the fourth
    call throwing *)
Definition chain_body (n k : nat) : @cprog nat (nat * nat) :=
  if decide (n = 3) then CThrow else
  match k `mod` 10 with
  | 0 => CRet (0, 0) []
  | S j => CNew (20 + j) (λ v, CNew j (λ w, CDrop 0 (CRet (S j, v.2 + w.2 + 1) [0])))
  end.
Definition chain_den (k : nat) : nat * nat := (k `mod` 10, 2 ^ (k `mod` 10) - 1).
Definition chain_lt (k k' : nat) : Prop := k `mod` 10 < k' `mod` 10.
Definition chain_eqv (k k' : nat) : bool := k `mod` 10 =? k' `mod` 10.
Lemma chain_def : recursive_def chain_body chain_eqv (λ _ v, v.1) chain_den chain_lt.
Proof.
  split; unfold chain_eqv, chain_lt, chain_den.
  - split; [intros; apply Nat.eqb_refl|by intros x y ?%Nat.eqb_eq; apply Nat.eqb_eq|].
    intros x y z ?%Nat.eqb_eq ?%Nat.eqb_eq. apply Nat.eqb_eq. congruence.
  - apply (well_founded_ltof _ (λ k, k `mod` 10)).
  - intros ???. lia.
  - intros k1 k1' k2 k2' ?%Nat.eqb_eq ?%Nat.eqb_eq. lia.
  - by intros k k' ->%Nat.eqb_eq.
  - intros n k. unfold chain_body. case_decide; [done|]. destruct (k `mod` 10) as [|j] eqn:E; cbn [follows]; rewrite E; [done|].
    pose proof (Nat.mod_upper_bound k 10 ltac:(lia)) as Hb. assert (Hj : j `mod` 10 = j) by (apply Nat.mod_small; lia).
    assert (H20 : (20 + j) `mod` 10 = j). { replace (20 + j) with (j + 2 * 10) by lia. by rewrite Nat.mod_add. }
    rewrite H20, Hj. cbn [fst snd]. split_and!; [lia|lia|]. f_equal. rewrite Nat.pow_succ_r'.
    assert (0 < 2 ^ j) by (apply Nat.neq_0_lt_0, Nat.pow_nonzero; lia). lia.
  - intros k. cbn [fst]. apply Nat.eqb_eq. by apply Nat.mod_mod.
Qed.
Example C18_chain :
  match urun chain_body true chain_eqv (λ _ v, v.1) 20 [UNew 0 5; UNew 0 4; UNew 1 13; UCopy 2 1; UDrop 1] u_init with
  | TNext t =>
      u_get t 0 = Some (4, 15) ∧ u_get t 1 = None ∧ u_get t 2 = Some (3, 7) ∧ size (ents (t_st t)) = 5 ∧
      match urun chain_body true chain_eqv (λ _ v, v.1) 20 [UDrop 0; UDrop 2] t with
      | TNext t' => size (ents (t_st t')) = 0
      | _ => False
      end
  | _ => False
  end.
Proof. vm_compute. split_and!; reflexivity. Qed.

Print Assumptions C18_no_undefined_behaviour.
Print Assumptions C18_value.
Print Assumptions C18_no_exception.
Print Assumptions C18_once.
Print Assumptions C18_once_created.
Print Assumptions C18_calls.
Print Assumptions C18_reclaimed.
Print Assumptions C19_reentry_throws.
Print Assumptions C19_reentry_returns.
Print Assumptions C19_refuted.
