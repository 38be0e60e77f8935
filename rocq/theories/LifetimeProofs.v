(** Proof rules for the programs of [Lifetime.v], and the contracts of the
    value policies. *)
From Verif Require Export Lifetime.

Section Wp.
  Context {K V : Type}.
  Notation mem := (mem (K:=K) (V:=V)).
  Notation rep := (rep (K:=K) (V:=V)).
  Notation M := (M (K:=K) (V:=V)).
  Implicit Types (m : mem) (r : rep).

  Definition wp {X} (p : M X) m (Q : X → mem → Prop) (E : mem → Prop) : Prop :=
    ∀ c, match p m c with Ret x m' _ => Q x m' | Thr m' _ => E m' | UB => False end.

  Lemma wp_ret {X} (x : X) m (Q : X → mem → Prop) (E : mem → Prop) : Q x m → wp (ret x) m Q E.
  Proof. by intros H c. Qed.
  Lemma wp_bind {X Y} (p : M X) (f : X → M Y) m (Q : Y → mem → Prop) (E : mem → Prop) :
    wp p m (λ x m', wp (f x) m' Q E) E → wp (bind p f) m Q E.
  Proof. intros H c. specialize (H c). unfold bind. destruct (p m c) as [x m' c'| |]; [by apply H|done|done]. Qed.
  Lemma wp_mono {X} (p : M X) m (Q Q' : X → mem → Prop) (E E' : mem → Prop) :
    wp p m Q E → (∀ x m', Q x m' → Q' x m') → (∀ m', E m' → E' m') → wp p m Q' E'.
  Proof. intros H HQ HE c. specialize (H c). destruct (p m c); auto. Qed.
  Lemma wp_throw m (Q : unit → mem → Prop) (E : mem → Prop) : Q tt m → E m → wp may_throw m Q E.
  Proof. intros HQ HE [|[] c]; done. Qed.
  Lemma wp_on_throw {X} (p : M X) q m (Q : X → mem → Prop) (E : mem → Prop) :
    wp p m Q (λ m', wp q m' (λ _, E) (λ _, False)) → wp (on_throw p q) m Q E.
  Proof.
    intros H c. specialize (H c). unfold on_throw. destruct (p m c) as [x m' c'|m' c'|]; [done| |done].
    specialize (H c'). by destruct (q m' c').
  Qed.
  Lemma wp_finally {X} (p : M X) q m (Q : X → mem → Prop) (E : mem → Prop) :
    wp p m (λ x m', wp q m' (λ _, Q x) (λ _, False)) (λ m', wp q m' (λ _, E) (λ _, False)) →
    wp (finally p q) m Q E.
  Proof.
    intros H c. specialize (H c). unfold finally. destruct (p m c) as [x m' c'|m' c'|]; [| |done];
      specialize (H c'); by destruct (q m' c').
  Qed.
  Lemma wp_get i r m (Q : rep → mem → Prop) (E : mem → Prop) : reps m !! i = Some r → Q r m → wp (get_rep i) m Q E.
  Proof. intros H HQ c. unfold get_rep. by rewrite H. Qed.
  Lemma wp_cted i r m (Q : bool → mem → Prop) (E : mem → Prop) : reps m !! i = Some r → Q (r_cted r) m → wp (cted i) m Q E.
  Proof. intros H HQ. apply wp_bind. eapply wp_get; [done|]. by apply wp_ret. Qed.
  Lemma wp_read_arg a v m (Q : option V → mem → Prop) (E : mem → Prop) : args m !! a = Some v → Q v m → wp (read_arg a) m Q E.
  Proof. intros H HQ c. unfold read_arg. by rewrite H. Qed.
  Lemma wp_read_key i r o x m (Q : option K → mem → Prop) (E : mem → Prop) : reps m !! i = Some r → r_key r = Some (o, x) → Q x m → wp (read_key i) m Q E.
  Proof. intros H Hk HQ. apply wp_bind. eapply wp_get; [done|]. rewrite Hk. by apply wp_ret. Qed.
  Lemma wp_read_val i r o x m (Q : option V → mem → Prop) (E : mem → Prop) : reps m !! i = Some r → r_val r = Some (o, x) → Q x m → wp (read_val i) m Q E.
  Proof. intros H Hk HQ. apply wp_bind. eapply wp_get; [done|]. rewrite Hk. by apply wp_ret. Qed.

  (** ** accounting of objects *)
  Definition slot {X} (s : option (nat * X)) (o : nat) : nat :=
    match s with Some (o', _) => if decide (o = o') then 1 else 0 | None => 0 end.
  Definition slots r (o : nat) : nat := slot (r_key r) o + slot (r_val r) o.
  Definition Cnt m : Prop :=
    (∀ o, occ o (made m) = b2n (o <? nobj m)) ∧
    (∀ o, occ o (gone m) + msum (λ r, slots r o) (reps m) = occ o (made m)) ∧
    ∀ i, nrep m ≤ i → reps m !! i = None.

  (** [m'] is [m] with the rep objects [R], the accounts being right *)
  Definition upd m m' (R : gmap nat rep) : Prop :=
    reps m' = R ∧ args m' = args m ∧ fac m' = fac m ∧ Cnt m'.

  Lemma upd_refl m : Cnt m → upd m m (reps m).
  Proof. done. Qed.
  Lemma upd_trans m m1 m2 R1 R2 : upd m m1 R1 → upd m1 m2 R2 → upd m m2 R2.
  Proof. intros (?&?&?&?) (?&?&?&?). split_and!; congruence. Qed.

  Lemma cnt_below m i r : Cnt m → reps m !! i = Some r → i < nrep m.
  Proof. intros (_&_&H) Hi. destruct (decide (i < nrep m)); [done|]. rewrite H in Hi by lia. done. Qed.

  Lemma cnt_new m i r r' : Cnt m → reps m !! i = Some r →
    (∀ o, slots r' o = slots r o + if decide (o = nobj m) then 1 else 0) →
    Cnt (Mem (<[i:=r']> (reps m)) (args m) (fac m) (nrep m) (S (nobj m)) (nobj m :: made m) (gone m)).
  Proof.
    intros HC Hi Hs. pose proof (cnt_below _ _ _ HC Hi) as Hlt. destruct HC as (H1&H2&H3). split_and!; simpl.
    - intros o. rewrite occ_cons, H1. unfold b2n. case_decide; destruct (Nat.ltb_spec o (nobj m)), (Nat.ltb_spec o (S (nobj m))); lia.
    - intros o. rewrite occ_cons. specialize (H2 o). pose proof (msum_upd (λ r, slots r o) (reps m) i r r' Hi) as Hm.
      simpl in Hm. rewrite Hs in Hm. case_decide; lia.
    - intros j Hj. rewrite lookup_insert_ne by lia. by apply H3.
  Qed.
  Lemma cnt_kill m i r r' o0 : Cnt m → reps m !! i = Some r →
    (∀ o, slots r o = slots r' o + if decide (o = o0) then 1 else 0) →
    Cnt (Mem (<[i:=r']> (reps m)) (args m) (fac m) (nrep m) (nobj m) (made m) (o0 :: gone m)).
  Proof.
    intros HC Hi Hs. pose proof (cnt_below _ _ _ HC Hi) as Hlt. destruct HC as (H1&H2&H3). split_and!; simpl; [done| |].
    - intros o. rewrite occ_cons. specialize (H2 o). pose proof (msum_upd (λ r, slots r o) (reps m) i r r' Hi) as Hm.
      simpl in Hm. rewrite Hs in Hm. case_decide; lia.
    - intros j Hj. rewrite lookup_insert_ne by lia. by apply H3.
  Qed.
  Lemma cnt_same m i r r' : Cnt m → reps m !! i = Some r → (∀ o, slots r' o = slots r o) →
    Cnt (set_reps (<[i:=r']> (reps m)) m).
  Proof.
    intros HC Hi Hs. pose proof (cnt_below _ _ _ HC Hi) as Hlt. destruct HC as (H1&H2&H3). split_and!; simpl; [done| |].
    - intros o. specialize (H2 o). pose proof (msum_upd (λ r, slots r o) (reps m) i r r' Hi) as Hm.
      simpl in Hm. rewrite Hs in Hm. lia.
    - intros j Hj. rewrite lookup_insert_ne by lia. by apply H3.
  Qed.

  Lemma wp_new_key i x r m (Q : unit → mem → Prop) (E : mem → Prop) : Cnt m → reps m !! i = Some r → r_key r = None →
    (∀ o m', upd m m' (<[i:=Rep (Some (o, x)) (r_val r) (r_cted r)]> (reps m)) → Q tt m') → E m →
    wp (new_key i x) m Q E.
  Proof.
    intros HC Hi Hk HQ HE. apply wp_bind. eapply wp_get; [done|]. rewrite Hk. apply wp_bind, wp_throw; [|done].
    intros c. simpl. apply (HQ (nobj m)). split_and!; try done. apply (cnt_new m i r); [done|done|].
    intros o. unfold slots. simpl. rewrite Hk. simpl. case_decide; lia.
  Qed.
  Lemma wp_new_val i x r m (Q : unit → mem → Prop) (E : mem → Prop) : Cnt m → reps m !! i = Some r → r_val r = None →
    (∀ o m', upd m m' (<[i:=Rep (r_key r) (Some (o, x)) (r_cted r)]> (reps m)) → Q tt m') → E m →
    wp (new_val i x) m Q E.
  Proof.
    intros HC Hi Hk HQ HE. apply wp_bind. eapply wp_get; [done|]. rewrite Hk. apply wp_bind, wp_throw; [|done].
    intros c. simpl. apply (HQ (nobj m)). split_and!; try done. apply (cnt_new m i r); [done|done|].
    intros o. unfold slots. simpl. rewrite Hk. simpl. case_decide; lia.
  Qed.
  Lemma wp_kill_key i r o x m (Q : unit → mem → Prop) (E : mem → Prop) : Cnt m → reps m !! i = Some r → r_key r = Some (o, x) →
    (∀ m', upd m m' (<[i:=Rep None (r_val r) (r_cted r)]> (reps m)) → Q tt m') →
    wp (kill_key i) m Q E.
  Proof.
    intros HC Hi Hk HQ. apply wp_bind. eapply wp_get; [done|]. rewrite Hk.
    intros c. simpl. apply HQ. split_and!; try done. apply (cnt_kill m i r _ o); [done|done|].
    intros o'. unfold slots. simpl. rewrite Hk. simpl. case_decide; lia.
  Qed.
  Lemma wp_kill_val i r o x m (Q : unit → mem → Prop) (E : mem → Prop) : Cnt m → reps m !! i = Some r → r_val r = Some (o, x) →
    (∀ m', upd m m' (<[i:=Rep (r_key r) None (r_cted r)]> (reps m)) → Q tt m') →
    wp (kill_val i) m Q E.
  Proof.
    intros HC Hi Hk HQ. apply wp_bind. eapply wp_get; [done|]. rewrite Hk.
    intros c. simpl. apply HQ. split_and!; try done. apply (cnt_kill m i r _ o); [done|done|].
    intros o'. unfold slots. simpl. rewrite Hk. simpl. case_decide; lia.
  Qed.
  Lemma wp_moved_key i r o x m (Q : unit → mem → Prop) (E : mem → Prop) : Cnt m → reps m !! i = Some r → r_key r = Some (o, x) →
    (∀ m', upd m m' (<[i:=Rep (Some (o, None)) (r_val r) (r_cted r)]> (reps m)) → Q tt m') →
    wp (moved_key i) m Q E.
  Proof.
    intros HC Hi Hk HQ. apply wp_bind. eapply wp_get; [done|]. rewrite Hk.
    intros c. simpl. apply HQ. split_and!; try done. apply (cnt_same m i r); [done|done|].
    intros o'. unfold slots. simpl. by rewrite Hk.
  Qed.
  Lemma wp_set_cted i r m (Q : unit → mem → Prop) (E : mem → Prop) : Cnt m → reps m !! i = Some r →
    (∀ m', upd m m' (<[i:=Rep (r_key r) (r_val r) true]> (reps m)) → Q tt m') →
    wp (set_cted i) m Q E.
  Proof.
    intros HC Hi HQ. apply wp_bind. eapply wp_get; [done|].
    intros c. simpl. apply HQ. split_and!; try done. by apply (cnt_same m i r).
  Qed.
  Lemma wp_dealloc i b m (Q : unit → mem → Prop) (E : mem → Prop) : Cnt m → reps m !! i = Some (Rep None None b) →
    (∀ m', upd m m' (delete i (reps m)) → Q tt m') → wp (dealloc i) m Q E.
  Proof.
    intros HC Hi HQ c. unfold dealloc. rewrite Hi. apply HQ. split_and!; try done.
    destruct HC as (H1&H2&H3). split_and!; simpl; [done| |].
    - intros o. specialize (H2 o). pose proof (msum_delete (λ r, slots r o) (reps m) i _ Hi) as Hm. 
      change (0 + msum (λ r, slots r o) (delete i (reps m)) = msum (λ r, slots r o) (reps m)) in Hm. lia.
    - intros j Hj. destruct (decide (i = j)) as [->|]; [by rewrite lookup_delete|]. rewrite lookup_delete_ne by done. by apply H3.
  Qed.

  (** constructors: [body] fills storage [i], or throws leaving it empty and
      the other rep objects as [E'] says *)
  Lemma wp_construct body m (Q : nat → mem → Prop) (E : mem → Prop) : Cnt m →
    (∀ m', reps m !! nrep m = None → upd m m' (<[nrep m:=Rep None None false]> (reps m)) → nrep m' = S (nrep m) →
       wp (body (nrep m)) m' (λ _, Q (nrep m)) (λ m2, wp (dealloc (nrep m)) m2 (λ _, E) (λ _, False))) →
    wp (construct body) m Q E.
  Proof.
    intros HC Hb. pose proof (proj2 (proj2 HC) (nrep m) ltac:(done)) as Hn. apply wp_bind. intros c. simpl.
    match goal with |- wp _ ?m1 _ _ => set (m' := m1) end.
    assert (Hu : upd m m' (<[nrep m:=Rep None None false]> (reps m))).
    { split_and!; try done. destruct HC as (H1&H2&H3). split_and!; simpl; [done| |].
      - intros o. rewrite msum_new by done. exact (H2 o).
      - intros j Hj. rewrite lookup_insert_ne by lia. apply H3. lia. }
    specialize (Hb m' Hn Hu eq_refl).
    apply wp_bind, wp_on_throw. eapply wp_mono; [exact Hb| |]; [|done]. intros ? m2 HQ. by apply wp_ret.
  Qed.
End Wp.

(** ** Contract of a value policy *)
Section Contract.
  Context {K V : Type}.
  Notation mem := (mem (K:=K) (V:=V)).
  Notation rep := (rep (K:=K) (V:=V)).

  (** What callers rely on.  [ok]: the state of a complete rep object;
      [built]: its value is available; [rkey], [rval]: contents.  [early]:
      construction from an rvalue value takes its contents. *)
  Record pol_ok (P : pol (K:=K) (V:=V)) (val : K → V) (ok : rep → Prop) (built : rep → bool)
      (rkey : rep → option K) (rval : rep → option V) (has_value early : bool) (kof : V → K) : Prop := {
    ok_args k m : Cnt m →
      wp (c_args P k) m
        (λ i m', reps m !! i = None ∧ ∃ r, upd m m' (<[i:=r]> (reps m)) ∧ ok r ∧ built r = early ∧ rkey r = Some k)
        (λ m', upd m m' (reps m));
    ok_copy j r0 m : Cnt m → reps m !! j = Some r0 → ok r0 →
      wp (c_copy P j) m
        (λ i m', reps m !! i = None ∧ ∃ r, upd m m' (<[i:=r]> (reps m)) ∧ ok r ∧ built r = early ∧ rkey r = rkey r0)
        (λ m', upd m m' (reps m));
    ok_move j r0 m : Cnt m → reps m !! j = Some r0 → ok r0 →
      wp (c_move P j) m
        (λ i m', reps m !! i = None ∧ ∃ r r1, upd m m' (<[i:=r]> (<[j:=r1]> (reps m))) ∧ ok r ∧ ok r1 ∧ built r = early ∧ rkey r = rkey r0)
        (λ m', ∃ r1, upd m m' (<[j:=r1]> (reps m)) ∧ ok r1);
    ok_value rv a v m : has_value = true → Cnt m → args m !! a = Some v →
      wp (c_value P rv a) m
        (λ i m', reps m !! i = None ∧ ∃ r, upd (if early && rv then set_args (<[a:=None]> (args m)) m else m) m'
                   (<[i:=r]> (reps m)) ∧ ok r ∧ built r = early ∧ rkey r = kof <$> v)
        (λ m', upd m m' (reps m) ∨ (early && rv = true ∧ upd (set_args (<[a:=None]> (args m)) m) m' (reps m)));
    ok_early r : early = true → ok r → built r = true ∧ rval r = val <$> rkey r;
    ok_early_key v : early = true → val (kof v) = v;
    ok_dtor i r m : Cnt m → reps m !! i = Some r → ok r →
      wp (dtor P i) m (λ _ m', upd m m' (delete i (reps m))) (λ _, False);
    ok_key i r m : reps m !! i = Some r → ok r → ∀ c, key P i m c = Ret (rkey r) m c;
    ok_val i r m : reps m !! i = Some r → ok r → built r = true → ∀ c, value P i m c = Ret (rval r) m c;
    ok_build_done w i r m : reps m !! i = Some r → ok r → built r = true → (w = ByKey ∨ has_value = true) →
      ∀ c, build P w i m c = Ret tt m c;
    ok_build w i r m : Cnt m → reps m !! i = Some r → ok r → built r = false →
      (match w with ByKey => True | ByCopy a | ByMove a => has_value = true ∧ is_Some (args m !! a) end) →
      wp (build P w i) m
        (λ _ m', ∃ r', upd (match w with ByMove a => set_args (<[a:=None]> (args m)) m | _ => m end) m' (<[i:=r']> (reps m)) ∧
           ok r' ∧ built r' = true ∧
           rval r' = match w with ByKey => val <$> rkey r | ByCopy a | ByMove a => default None (args m !! a) end ∧
           (w = ByKey ∧ rkey r' = rkey r ∨ has_value = true ∧ rkey r' = kof <$> rval r'))
        (λ m', upd m m' (reps m) ∨ ∃ a, w = ByMove a ∧ upd (set_args (<[a:=None]> (args m)) m) m' (reps m));
  }.
End Contract.

(** ** The three policies satisfy it *)
Section Policies.
  Context {K V : Type} (val : K → V) (ext : V → K).
  Notation mem := (mem (K:=K) (V:=V)).
  Notation rep := (rep (K:=K) (V:=V)).
  Implicit Types (r : rep).

  Definition key_in r : option K := match r_key r with Some (_, x) => x | None => None end.
  Definition val_in r : option V := match r_val r with Some (_, x) => x | None => None end.

  (** with extractor: exactly one of key and value *)
  Definition variant_ok r : Prop :=
    if r_cted r then r_key r = None ∧ is_Some (r_val r) else is_Some (r_key r) ∧ r_val r = None.
  Definition variant_key r : option K := if r_cted r then ext <$> val_in r else key_in r.
  (** without: always a key, a value when flagged *)
  Definition product_ok r : Prop :=
    is_Some (r_key r) ∧ if r_cted r then is_Some (r_val r) else r_val r = None.

  Ltac upds := match goal with
    | H : upd _ _ _ |- _ => let HR := fresh "HR" in let HA := fresh "HA" in let HFa := fresh "HFa" in let HC := fresh "HC" in
        destruct H as (HR&HA&HFa&HC)
    end.
  Ltac fin := simpl in *; split_and?; simpl; try done; try (by eexists); eauto; done.
  Ltac look := repeat first [rewrite lookup_insert | rewrite lookup_insert_ne by done | progress simpl | done].

  (** filling fresh storage with a key *)
  Lemma fill_key (m m' : mem) x R i (Q : unit → mem → Prop) (E : mem → Prop) :
    R !! i = None → upd m m' (<[i:=Rep None None false]> R) →
    (∀ m2 o, upd m m2 (<[i:=Rep (Some (o, x)) None false]> R) → Q tt m2) →
    (∀ m2, upd m m2 R → E m2) →
    wp (new_key i x) m' Q (λ m2, wp (dealloc i) m2 (λ _, E) (λ _, False)).
  Proof.
    intros Hn Hu HQ HE. pose proof Hu as (HR&HA&HFa&HC).
    eapply wp_new_key; [done|rewrite HR; look|done| |].
    - intros o m2 Hu2. simpl in Hu2. rewrite HR, insert_insert in Hu2. eapply HQ. by eapply upd_trans.
    - eapply wp_dealloc; [done|rewrite HR; look|]. intros m2 Hu2. rewrite HR, delete_insert in Hu2 by done.
      apply HE. by eapply upd_trans.
  Qed.

  Lemma upd_args (m m' : mem) R a : upd m m' R → upd (set_args a m) (set_args a m') R.
  Proof. intros (?&?&?&?). by split_and!. Qed.

  Lemma variant_pol_ok : pol_ok (variant val ext) val variant_ok r_cted variant_key val_in true false ext.
  Proof.
    split.
    - intros k m HC. apply wp_construct; [done|]. intros m' Hn Hu _.
      eapply fill_key; [done|exact Hu| |done]. intros m2 o Hu2. split; [done|]. eexists. split; [exact Hu2|]. fin.
    - intros j r0 m HC Hj Hok. apply wp_construct; [done|]. intros m' Hn Hu _. pose proof Hu as (HR&_).
      assert (Hne : nrep m ≠ j) by congruence.
      assert (Hj' : reps m' !! j = Some r0) by (by rewrite HR, lookup_insert_ne).
      apply wp_bind. eapply wp_cted; [done|]. unfold variant_ok, variant_key, key_in, val_in in *. destruct (r_cted r0) eqn:Ec.
      + destruct Hok as [Hk0 [[o v] Hv]]. apply wp_bind. eapply wp_read_val; [done|done|].
        eapply fill_key; [done|exact Hu| |done]. intros m2 o2 Hu2. split; [done|]. eexists. split; [exact Hu2|]. simpl. rewrite Hv. fin.
      + destruct Hok as [[[o k] Hk] _]. apply wp_bind. eapply wp_read_key; [done|done|].
        eapply fill_key; [done|exact Hu| |done]. intros m2 o2 Hu2. split; [done|]. eexists. split; [exact Hu2|]. simpl. rewrite Hk. fin.
    - intros j r0 m HC Hj Hok. apply wp_construct; [done|]. intros m' Hn Hu _. pose proof Hu as (HR&_&_&HC').
      assert (Hne : nrep m ≠ j) by congruence.
      assert (Hj' : reps m' !! j = Some r0) by (by rewrite HR, lookup_insert_ne).
      apply wp_bind. eapply wp_cted; [done|]. pose proof Hok as Hok0. unfold variant_ok, variant_key, key_in, val_in in *. destruct (r_cted r0) eqn:Ec.
      + destruct Hok as [Hk0 [[o v] Hv]]. apply wp_bind. eapply wp_read_val; [done|done|].
        eapply fill_key; [done|exact Hu| |].
        * intros m2 o2 Hu2. split; [done|]. eexists _, r0. rewrite (insert_id _ _ _ Hj). split; [exact Hu2|].
          simpl. rewrite Hv, Ec. fin.
        * intros m2 Hu2. exists r0. rewrite (insert_id _ _ _ Hj), Ec. done.
      + destruct Hok as [[[o k] Hk] Hv]. apply wp_bind. eapply wp_read_key; [done|done|].
        apply wp_bind. eapply wp_moved_key; [done|done|done|]. intros m1 Hu1. rewrite Hv, Ec, HR in Hu1.
        rewrite (insert_commute _ _ _ _ _ (not_eq_sym Hne)) in Hu1.
        eapply (fill_key m); [| by eapply upd_trans| |]; [by rewrite lookup_insert_ne| |].
        * intros m2 o2 Hu2. split; [done|]. eexists _, _. split; [exact Hu2|]. simpl. rewrite Hk. fin.
        * intros m2 Hu2. eexists. split; [exact Hu2|]. fin.
    - intros rv a v m _ HC Ha. apply wp_construct; [done|]. intros m' Hn Hu _. pose proof Hu as (HR&HA&_).
      apply wp_bind. eapply wp_read_arg; [by rewrite HA|].
      eapply fill_key; [done|exact Hu| |by left]. intros m2 o Hu2. split; [done|]. eexists. split; [exact Hu2|]. fin.
    - done.
    - done.
    - intros i r m HC Hi Hok. apply wp_bind. eapply wp_cted; [done|]. unfold variant_ok in Hok. apply wp_bind. destruct (r_cted r) eqn:Ec.
      + destruct Hok as [Hk [[o v] Hv]]. eapply wp_kill_val; [done|done|done|]. intros m' Hu. pose proof Hu as (HR&_&_&HC').
        rewrite Hk in *. eapply wp_dealloc; [done|by rewrite HR, lookup_insert|]. intros m2 Hu2. rewrite HR, delete_insert_delete in Hu2. by eapply upd_trans.
      + destruct Hok as [[[o k] Hk] Hv]. eapply wp_kill_key; [done|done|done|]. intros m' Hu. pose proof Hu as (HR&_&_&HC').
        rewrite Hv in *. eapply wp_dealloc; [done|by rewrite HR, lookup_insert|]. intros m2 Hu2. rewrite HR, delete_insert_delete in Hu2. by eapply upd_trans.
    - intros i r m Hi Hok c. unfold variant_ok, variant_key, key_in, val_in in *. simpl. unfold cted, read_val, read_key, bind, get_rep. rewrite Hi. simpl.
      destruct (r_cted r).
      + destruct Hok as [_ [[o v] Hv]]. rewrite Hi, Hv. done.
      + destruct Hok as [[[o k] Hk] _]. rewrite Hi, Hk. done.
    - intros i r m Hi Hok Hb c. unfold variant_ok, val_in in *. simpl. unfold cted, read_val, bind, get_rep. rewrite Hi. simpl.
      rewrite Hb in *. destruct Hok as [_ [[o v] Hv]]. rewrite Hi, Hv. done.
    - intros w i r m Hi Hok Hb _ c. simpl. unfold variant_build_with, cted, bind, get_rep. rewrite Hi. simpl. by rewrite Hb.
    - intros w i r m HC Hi Hok Hb Hw. simpl. unfold variant_build_with. apply wp_bind. eapply wp_cted; [done|]. rewrite Hb.
      unfold variant_ok in Hok. rewrite Hb in Hok. destruct Hok as [[[o k] Hk] Hv].
      assert (Hrest : ∀ (m0 : mem) v (Q : unit → mem → Prop) (E : mem → Prop), Cnt m0 → reps m0 = reps m →
        (∀ m' o', upd m0 m' (<[i:=Rep None (Some (o', v)) true]> (reps m)) → Q tt m') → E m0 →
        wp (bind (new_val i v) (λ _, bind (kill_key i) (λ _, set_cted i))) m0 Q E).
      { clear Hw. intros m0 v Q E HC0 E0 HQ HE. apply wp_bind. eapply wp_new_val; [done|by rewrite E0|done| |done].
        intros o1 m1 Hu1. rewrite Hk, Hb, E0 in Hu1. pose proof Hu1 as (HR1&_&_&HC1). apply wp_bind.
        eapply wp_kill_key; [done|by rewrite HR1, lookup_insert|done|]. intros m2 Hu2. simpl in Hu2. rewrite HR1, insert_insert in Hu2.
        pose proof Hu2 as (HR2&_&_&HC2). eapply wp_set_cted; [done|by rewrite HR2, lookup_insert|]. intros m3 Hu3. simpl in Hu3.
        rewrite HR2, insert_insert in Hu3. eapply HQ. eapply upd_trans; [exact Hu1|]. eapply upd_trans; [exact Hu2|exact Hu3]. }
      destruct w as [|a|a].
      + apply wp_bind, wp_bind. eapply wp_read_key; [done|done|]. apply wp_ret. apply Hrest; [done|done| |by left].
        intros m' o' Hu. eexists. split; [exact Hu|]. unfold variant_key, key_in, val_in. simpl. rewrite Hk, Hb.
        split; [by split|]. split; [done|]. split; [done|by right].
      + destruct Hw as [_ [v Hv']]. apply wp_bind. eapply wp_read_arg; [done|]. apply Hrest; [done|done| |by left].
        intros m' o' Hu. eexists. split; [exact Hu|]. unfold variant_key, key_in, val_in. simpl. rewrite Hv'.
        split; [by split|]. split; [done|]. split; [done|by right].
      + destruct Hw as [_ [v Hv']]. apply wp_bind, wp_bind. eapply wp_read_arg; [done|]. apply wp_bind. intros c. simpl.
        apply wp_ret. apply Hrest; [done|done| |].
        * intros m' o' Hu. eexists. split; [exact Hu|]. unfold variant_key, key_in, val_in. simpl. rewrite Hv'.
          split; [by split|]. split; [done|]. split; [done|by right].
        * right. exists a. split; [done|]. split_and!; done.
  Qed.

  Lemma product_pol_ok : pol_ok (product val) val product_ok r_cted key_in val_in false false ext.
  Proof.
    split.
    - intros k m HC. apply wp_construct; [done|]. intros m' Hn Hu _.
      eapply fill_key; [done|exact Hu| |done]. intros m2 o Hu2. split; [done|]. eexists. split; [exact Hu2|]. unfold product_ok. fin.
    - intros j r0 m HC Hj Hok. apply wp_construct; [done|]. intros m' Hn Hu _. pose proof Hu as (HR&_).
      assert (Hne : nrep m ≠ j) by congruence.
      assert (Hj' : reps m' !! j = Some r0) by (by rewrite HR, lookup_insert_ne).
      destruct Hok as [[[o k] Hk] _]. apply wp_bind. eapply wp_read_key; [done|done|].
      eapply fill_key; [done|exact Hu| |done]. intros m2 o2 Hu2. split; [done|]. eexists. split; [exact Hu2|]. unfold product_ok, key_in. rewrite Hk. fin.
    - intros j r0 m HC Hj Hok. apply wp_construct; [done|]. intros m' Hn Hu _. pose proof Hu as (HR&_&_&HC').
      assert (Hne : nrep m ≠ j) by congruence.
      assert (Hj' : reps m' !! j = Some r0) by (by rewrite HR, lookup_insert_ne).
      destruct Hok as [[[o k] Hk] Hv]. apply wp_bind. eapply wp_read_key; [done|done|].
      apply wp_bind. eapply wp_moved_key; [done|done|done|]. intros m1 Hu1. rewrite HR in Hu1.
      rewrite (insert_commute _ _ _ _ _ (not_eq_sym Hne)) in Hu1.
      eapply (fill_key m); [| by eapply upd_trans| |]; [by rewrite lookup_insert_ne| |].
      + intros m2 o2 Hu2. split; [done|]. eexists _, _. split; [exact Hu2|]. unfold product_ok, key_in. rewrite Hk. fin.
      + intros m2 Hu2. eexists. split; [exact Hu2|]. unfold product_ok. fin.
    - done.
    - done.
    - done.
    - intros i r m HC Hi Hok. apply wp_bind. eapply wp_cted; [done|]. destruct Hok as [[[o k] Hk] Hv]. apply wp_bind. destruct (r_cted r) eqn:Ec.
      + destruct Hv as [[o2 v] Hv]. eapply wp_kill_val; [done|done|done|]. intros m' Hu. pose proof Hu as (HR&_&_&HC').
        rewrite Hk in *. apply wp_bind. eapply wp_kill_key; [done|by rewrite HR, lookup_insert|done|]. intros m1 Hu1. simpl in Hu1.
        rewrite HR, insert_insert in Hu1. pose proof Hu1 as (HR1&_&_&HC1).
        eapply wp_dealloc; [done|by rewrite HR1, lookup_insert|]. intros m2 Hu2. rewrite HR1, delete_insert_delete in Hu2.
        eapply upd_trans; [exact Hu|]. eapply upd_trans; [exact Hu1|exact Hu2].
      + apply wp_ret. apply wp_bind. eapply wp_kill_key; [done|done|done|]. intros m' Hu. pose proof Hu as (HR&_&_&HC').
        rewrite Hv in *. eapply wp_dealloc; [done|by rewrite HR, lookup_insert|]. intros m2 Hu2. rewrite HR, delete_insert_delete in Hu2. by eapply upd_trans.
    - intros i r m Hi Hok c. unfold key_in. simpl. unfold read_key, bind, get_rep. rewrite Hi. destruct Hok as [[[o k] Hk] _]. by rewrite Hk.
    - intros i r m Hi Hok Hb c. unfold val_in. simpl. unfold cted, read_val, bind, get_rep. rewrite Hi. simpl.
      destruct Hok as [_ Hv]. rewrite Hb in *. destruct Hv as [[o v] Hv]. rewrite Hi, Hv. done.
    - intros w i r m Hi Hok Hb [->|?] c; [|done]. simpl. unfold cted, bind, get_rep. rewrite Hi. simpl. by rewrite Hb.
    - intros w i r m HC Hi Hok Hb Hw. destruct w as [|a|a]; [|by destruct Hw|by destruct Hw]. simpl. apply wp_bind. eapply wp_cted; [done|]. rewrite Hb.
      destruct Hok as [[[o k] Hk] Hv]. rewrite Hb in Hv. apply wp_bind. eapply wp_read_key; [done|done|]. apply wp_bind.
      eapply wp_new_val; [done|done|done| |by left]. intros o1 m1 Hu1. rewrite Hk, Hb in Hu1. pose proof Hu1 as (HR1&_&_&HC1).
      eapply wp_set_cted; [done|by rewrite HR1, lookup_insert|]. intros m3 Hu3. simpl in Hu3. rewrite HR1, insert_insert in Hu3.
      eexists. split; [eapply upd_trans; [exact Hu1|exact Hu3]|]. unfold product_ok, key_in, val_in. simpl. rewrite Hk.
      split; [by split; eauto|]. split; [done|]. split; [done|]. by left.
  Qed.
End Policies.

Section DefaultOk.
  Context {V : Type}.
  Definition default_ok (r : rep (K:=V) (V:=V)) : Prop := is_Some (r_key r) ∧ r_val r = None.

  Lemma default_pol_ok : pol_ok (default_pol (V:=V)) id default_ok (λ _, true) key_in key_in true true id.
  Proof.
    split.
    - intros k m HC. apply wp_construct; [done|]. intros m' Hn Hu _.
      eapply fill_key; [done|exact Hu| |done]. intros m2 o Hu2. split; [done|]. eexists. split; [exact Hu2|]. by repeat split; eauto.
    - intros j r0 m HC Hj Hok. apply wp_construct; [done|]. intros m' Hn Hu _. pose proof Hu as (HR&_).
      assert (Hne : nrep m ≠ j) by congruence.
      assert (Hj' : reps m' !! j = Some r0) by (by rewrite HR, lookup_insert_ne).
      destruct Hok as [[[o k] Hk] _]. apply wp_bind. eapply wp_read_key; [done|done|].
      eapply fill_key; [done|exact Hu| |done]. intros m2 o2 Hu2. split; [done|]. eexists. split; [exact Hu2|]. unfold key_in. rewrite Hk. by repeat split; eauto.
    - intros j r0 m HC Hj Hok. apply wp_construct; [done|]. intros m' Hn Hu _. pose proof Hu as (HR&_&_&HC').
      assert (Hne : nrep m ≠ j) by congruence.
      assert (Hj' : reps m' !! j = Some r0) by (by rewrite HR, lookup_insert_ne).
      destruct Hok as [[[o k] Hk] Hv]. apply wp_bind. eapply wp_read_key; [done|done|].
      apply wp_bind. eapply wp_moved_key; [done|done|done|]. intros m1 Hu1. rewrite HR in Hu1.
      rewrite (insert_commute _ _ _ _ _ (not_eq_sym Hne)) in Hu1.
      eapply (fill_key m); [| by eapply upd_trans| |]; [by rewrite lookup_insert_ne| |].
      + intros m2 o2 Hu2. split; [done|]. eexists _, _. split; [exact Hu2|]. unfold key_in. rewrite Hk. by repeat split; eauto.
      + intros m2 Hu2. eexists. split; [exact Hu2|]. by repeat split; eauto.
    - intros rv a v m _ HC Ha. apply wp_construct; [done|]. intros m' Hn Hu _. pose proof Hu as (HR&HA&_).
      apply wp_bind. eapply wp_read_arg; [by rewrite HA|]. apply wp_bind. destruct rv.
      + intros c. simpl. eapply (fill_key (set_args (<[a:=None]> (args m)) m)); [exact Hn| | |].
        * rewrite HA. apply upd_args. exact Hu.
        * intros m2 o Hu2. split; [done|]. eexists. split; [exact Hu2|]. unfold key_in. simpl. rewrite option_fmap_id. by repeat split; eauto.
        * intros m2 Hu2. right. done.
      + apply wp_ret. eapply fill_key; [done|exact Hu| |by left]. intros m2 o Hu2. split; [done|]. eexists. split; [exact Hu2|].
        unfold key_in. simpl. rewrite option_fmap_id. by repeat split; eauto.
    - intros r _ _. by rewrite option_fmap_id.
    - done.
    - intros i r m HC Hi Hok. destruct Hok as [[[o k] Hk] Hv]. apply wp_bind.
      eapply wp_kill_key; [done|done|done|]. intros m' Hu. pose proof Hu as (HR&_&_&HC').
      rewrite Hv in *. eapply wp_dealloc; [done|by rewrite HR, lookup_insert|]. intros m2 Hu2. rewrite HR, delete_insert_delete in Hu2. by eapply upd_trans.
    - intros i r m Hi Hok c. unfold key_in. simpl. unfold read_key, bind, get_rep. rewrite Hi. destruct Hok as [[[o k] Hk] _]. by rewrite Hk.
    - intros i r m Hi Hok _ c. unfold key_in. simpl. unfold read_key, bind, get_rep. rewrite Hi. destruct Hok as [[[o k] Hk] _]. by rewrite Hk.
    - done.
    - done.
  Qed.
End DefaultOk.
