(** Invariants of [Statics.v]. *)
From Verif Require Import StaticsSpec.

(** ** lists, sums *)
Lemma before_in d e k : before d e k → d ∈ k ∧ e ∈ k.
Proof. intros (k1&k2&->&H). set_solver. Qed.
Lemma before_cons d e x k : before d e k → before d e (x :: k).
Proof. intros (k1&k2&->&H). by exists (x :: k1), k2. Qed.
Lemma before_top d e k : e ∈ k → before d e (d :: k).
Proof. intros H. by exists [], k. Qed.
Lemma before_tail d e x k : before d e (x :: k) → d ≠ x → before d e k.
Proof. intros ([|y k1]&k2&E&H) Hne; simplify_eq/=. by exists k1, k2. Qed.
Lemma before_not_top d e k : NoDup (e :: k) → ¬ before d e (e :: k).
Proof.
  intros Hnd ([|y k1]&k2&E&H); simplify_eq/=; apply NoDup_cons in Hnd as [Hn _]; [done|]. apply Hn. set_solver.
Qed.

Lemma lsum_perm {A} (F : A → nat) l k : l ≡ₚ k → lsum F l = lsum F k.
Proof. induction 1; rewrite ?lsum_cons; lia. Qed.
Lemma remove_perm (xs l w : list (nat * nat)) : list_remove_list xs l = Some w → l ≡ₚ xs ++ w.
Proof.
  revert l. induction xs as [|x xs IH]; intros l; simpl; [by intros [= ->]|].
  intros (l'&H1&H2)%bind_Some. apply list_remove_Some in H1. rewrite H1. simpl. f_equiv. by apply IH.
Qed.
Lemma msum_lsum {A} (F : A → nat) (m : gmap nat A) : msum F m = lsum (λ e, F e.2) (map_to_list m).
Proof.
  induction m as [|k x m Hk IH] using map_ind; [by rewrite msum_empty, map_to_list_empty|].
  rewrite msum_new by done. rewrite (lsum_perm _ _ ((k, x) :: map_to_list m)) by (by apply map_to_list_insert). rewrite lsum_cons. simpl. lia.
Qed.
Lemma msum_filter {A} (F : A → nat) (P : nat * A → Prop) `{!∀ x, Decision (P x)} (m : gmap nat A) :
  msum F m = msum F (filter P m) + msum F (filter (λ x, ¬ P x) m).
Proof.
  induction m as [|k x m Hk IH] using map_ind; [by rewrite !map_filter_empty, !msum_empty|].
  rewrite msum_new by done. destruct (decide (P (k, x))) as [Hp|Hp].
  - rewrite map_filter_insert_True by done. rewrite map_filter_insert_False by (intros ?; done). rewrite (delete_notin m k) by done.
    rewrite msum_new; [lia|]. apply map_filter_lookup_None. by left.
  - rewrite map_filter_insert_False by done. rewrite (map_filter_insert_True (λ x, ¬ P x)) by done. rewrite (delete_notin m k) by done.
    rewrite msum_new; [lia|]. apply map_filter_lookup_None. by left.
Qed.

Lemma upd_eq {A} (g : nat → A) c x : upd g c x c = x.
Proof. unfold upd. by rewrite decide_True. Qed.
Lemma upd_ne {A} (g : nat → A) c x c' : c' ≠ c → upd g c x c' = g c'.
Proof. unfold upd. intros. by rewrite decide_False. Qed.

(** ** structure: holds in every reachable state *)
Record SInv (s : state) : Prop := {
  s_hold c : hold s c = Alive ↔ DHolder c ∈ stack s;
  s_nodup : NoDup (stack s);
  s_flag c : flag s c = bool_decide (hold s c ≠ Raw);
  s_ptr c : ptr s c = flag s c;
  s_made c : made s c = if decide (hold s c = Raw) then 0 else 1;
  s_dead c : exiting s = false → hold s c ≠ Dead;
}.

Lemma sinv_ready s c : SInv s → ready s c = bool_decide (hold s c = Alive).
Proof.
  intros HI. unfold ready. rewrite (s_ptr _ HI), (s_flag _ HI). case_bool_decide as H1; case_bool_decide as H2; try done.
  congruence.
Qed.
Lemma sinv_eq s s' : SInv s → flag s' = flag s → ptr s' = ptr s → hold s' = hold s → made s' = made s → stack s' = stack s →
  (exiting s' = false → exiting s = false) → SInv s'.
Proof. intros [H1 H2 H3 H4 H5 H6] E1 E2 E3 E4 E5 E6. split; rewrite ?E1, ?E2, ?E3, ?E4, ?E5; auto. Qed.

Lemma sinv_get c s : SInv s → hold s c = Raw → SInv (set_flag c true (set_ptr c true (get c s))).
Proof.
  intros [H1 H2 H3 H4 H5 H6] Hr. unfold get. rewrite decide_True by done. split; simpl.
  - intros c'. rewrite elem_of_cons. unfold upd. case_decide; subst; [split; [by left|done]|]. rewrite H1. split; [by right|intros [[=]|?]; done].
  - constructor; [|done]. intros Hin%H1. congruence.
  - intros c'. unfold upd. case_decide; subst; [by rewrite bool_decide_eq_true_2|apply H3].
  - intros c'. unfold upd. case_decide; subst; [done|apply H4].
  - intros c'. unfold upd. case_decide; subst; [|apply H5]. rewrite H5, decide_True by done. by rewrite decide_False.
  - intros c' He. unfold upd. case_decide; [done|by apply H6].
Qed.
Lemma init_id c s : SInv s → hold s c ≠ Raw → init c s = s.
Proof. intros HI Hr. unfold init. rewrite (s_flag _ HI), bool_decide_eq_true_2 by done. done. Qed.
Lemma init_new c s : SInv s → hold s c = Raw → init c s = set_flag c true (set_ptr c true (get c s)).
Proof.
  intros HI Hr. unfold init. rewrite (s_flag _ HI), bool_decide_eq_false_2 by (intros ?; done). simpl. unfold upd. by rewrite decide_True.
Qed.
Lemma init_sinv c s : SInv s → SInv (init c s).
Proof.
  intros HI. destruct (decide (hold s c = Raw)); [rewrite init_new by done; by apply sinv_get|by rewrite init_id].
Qed.
(** what init changes *)
Lemma init_rest c s : SInv s → ents (init c s) = ents s ∧ owns (init c s) = owns s ∧ todo (init c s) = todo s ∧ exiting (init c s) = exiting s ∧
  (stack (init c s) = stack s ∧ hold (init c s) = hold s ∨ hold s c = Raw ∧ stack (init c s) = DHolder c :: stack s ∧ hold (init c s) = upd (hold s) c Alive).
Proof.
  intros HI. destruct (decide (hold s c = Raw)).
  - rewrite init_new by done. unfold get. rewrite decide_True by done. simpl. split_and!; try done. by right.
  - rewrite init_id by done. split_and!; try done. by left.
Qed.
Lemma init_hold c s : SInv s → hold (init c s) c ≠ Raw.
Proof.
  intros HI. destruct (init_rest c s HI) as (_&_&_&_&[[_ E]|(Hr&_&E)]); rewrite E; [|by rewrite upd_eq].
  destruct (decide (hold s c = Raw)) as [Hr|]; [|done]. intros _. rewrite init_new in E by done. unfold get in E. rewrite decide_True in E by done. simpl in E.
  apply (f_equal (λ g, g c)) in E. rewrite upd_eq in E. congruence.
Qed.

Section steps.
  Context (core : nat → nat) (tracked : nat → bool) (kids : nat → list nat).
  Notation step := (step core tracked kids).
  Notation run := (run core tracked kids).
  Notation exec := (exec core tracked kids).

  Lemma exec_sinv x s s' : SInv s → exec x s = Next s' → SInv s'.
  Proof.
    intros HI. assert (Hi := λ c, init_sinv c s HI). destruct x as [c|c|f o|o f|o f|o|f o|f]; simpl; intros H.
    - simplify_eq. apply Hi.
    - simplify_eq. pose proof (Hi c) as H. destruct H as [H1 H2 H3 H4 H5 H6]. split; simpl; try done; intros c'; unfold upd; case_decide; subst; auto.
    - simplify_eq. by eapply sinv_eq.
    - case_match; simplify_eq. by eapply sinv_eq.
    - repeat case_match; simplify_eq. done.
    - case_bool_decide as Hn; simplify_eq. destruct HI as [H1 H2 H3 H4 H5 H6]. split; simpl; try done; [|by constructor].
      intros c. rewrite H1, elem_of_cons. split; [by right|intros [[=]|?]; done].
    - repeat case_match; simplify_eq; (eapply sinv_eq; [apply (Hi (core f))|..]; done).
    - repeat case_match; simplify_eq; first [done|eapply sinv_eq; [apply (Hi (core f))|..]; done|by eapply sinv_eq].
  Qed.
  Lemma step_sinv s l s' : SInv s → step s l = Next s' → SInv s'.
  Proof.
    intros HI H. destruct l as [x| | |]; simpl in H.
    - repeat case_match; simplify_eq. by eapply sinv_eq.
    - destruct (todo s) as [|x k]; [done|]. eapply exec_sinv; [|exact H]. by eapply sinv_eq.
    - repeat case_match; simplify_eq. by eapply sinv_eq.
    - destruct (todo s) as [|x k]; [|done]. destruct (exiting s) eqn:He; [|done]. unfold pop in H. destruct HI as [H1 H2 H3 H4 H5 H6].
      destruct (stack s) as [|[c|o] k] eqn:Ek; [done| |].
      + simplify_eq. apply NoDup_cons in H2 as [Hn H2]. assert (Hc : hold s c = Alive) by (apply H1; left). split; simpl; try done.
        * intros c'. unfold upd. case_decide; subst; [split; done|]. rewrite H1, elem_of_cons. split; [intros [[=]|?]; done|by right].
        * intros c'. rewrite H3. unfold upd. case_decide; subst; [|done]. rewrite Hc. done.
        * intros c'. rewrite H5. destruct (decide (c' = c)) as [->|]; [rewrite upd_eq, Hc|rewrite upd_ne by done]; done.
        * congruence.
      + case_match; simplify_eq. apply NoDup_cons in H2 as [Hn H2]. split; simpl; try done; try congruence.
        intros c'. rewrite H1, elem_of_cons. split; [intros [[=]|?]; done|by right].
  Qed.
  Lemma start_sinv : SInv start.
  Proof. split; simpl; try done; [|constructor]. intros c. split; [done|by intros ?%elem_of_nil]. Qed.
  Lemma run_sinv ls : ∀ s s', SInv s → run s ls = Next s' → SInv s'.
  Proof.
    induction ls as [|l ls IH]; intros s s' HI H; simpl in H; [by simplify_eq|].
    destruct (step s l) as [s1| |] eqn:E; [|by eapply IH|done]. eapply IH; [by eapply step_sinv|done].
  Qed.
  Lemma reach_sinv s : reachable core tracked kids s → SInv s.
  Proof. intros [ls H]. eapply run_sinv; [apply start_sinv|done]. Qed.

  (** the order of the registered functions never changes *)
  Lemma step_before s l s' d e : SInv s → step s l = Next s' → before d e (stack s) → d ∈ stack s' → before d e (stack s').
  Proof.
    intros HI H Hb Hd. assert (Hst : stack s' = stack s ∨ (∃ x, stack s' = x :: stack s) ∨ ∃ x, stack s = x :: stack s').
    { assert (Hi : ∀ k c, let s0 := set_todo k s in stack (init c s0) = stack s ∨ ∃ x, stack (init c s0) = x :: stack s).
      { intros k c s0. assert (SInv s0) as H0 by (by eapply sinv_eq). destruct (init_rest c s0 H0) as (_&_&_&_&[[E _]|(_&E&_)]); rewrite E; eauto. }
      destruct l as [x| | |]; simpl in H; [repeat case_match; simplify_eq; auto| |repeat case_match; simplify_eq; auto|].
      - destruct (todo s) as [|x k]; [done|]. specialize (Hi k). unfold Statics.exec in H.
        destruct x as [c|c|f o|o f|o f|o|f o|f]; [specialize (Hi c)|specialize (Hi c)|clear Hi|clear Hi|clear Hi|clear Hi|specialize (Hi (core f))|specialize (Hi (core f))]; try cbv zeta in Hi;
          repeat case_match; simplify_eq; simpl in *; try (by left); try (by right; left; eexists); try (destruct Hi as [->|Hi]; auto); auto.
      - destruct (todo s); [|done]. destruct (exiting s); [|done]. unfold pop in H. destruct (stack s) as [|[c|o] k]; [done| |]; [simplify_eq; right; right; by eexists|].
        case_match; simplify_eq; right; right; by eexists. }
    destruct Hst as [E|[[x E]|[x E]]]; [by rewrite E|rewrite E; by apply before_cons|]. rewrite E in Hb. apply (before_tail _ _ x); [done|].
    intros ->. pose proof (s_nodup _ HI) as Hn. rewrite E in Hn. by apply NoDup_cons in Hn as [Hn _].
  Qed.
End steps.

(** ** counting *)
Definition pend (f : nat) (x : op) : nat := match x with ORelease g => if decide (f = g) then 1 else 0 | _ => 0 end.
Definition own1 (f : nat) (p : nat * nat) : nat := if decide (f = p.2) then 1 else 0.
(** references to [f]: from objects, from values, from destructions under way *)
Definition refs_of (w : list (nat * nat)) (e : gmap nat (nat * list nat)) (k : list op) (f : nat) : nat :=
  lsum (own1 f) w + msum (λ x, occ f x.2) e + lsum (pend f) k.
Notation refs s := (refs_of (owns s) (ents s) (todo s)).

Lemma lsum_own1_map f o l : lsum (own1 f) (map (pair o) l) = occ f l.
Proof. induction l as [|g l IH]; [done|]. simpl. by rewrite lsum_cons, occ_cons, IH. Qed.
Lemma lsum_own1_snd f (l : list (nat * nat)) : lsum (own1 f) l = occ f l.*2.
Proof. induction l as [|g l IH]; [done|]. simpl. by rewrite lsum_cons, occ_cons, IH. Qed.
Lemma lsum_pend_rel f l : lsum (pend f) (map ORelease l) = occ f l.
Proof. induction l as [|g l IH]; [done|]. simpl. by rewrite lsum_cons, occ_cons, IH. Qed.
Lemma lsum_pend_zero f (l : list op) : (∀ x, x ∈ l → pend f x = 0) → lsum (pend f) l = 0.
Proof. induction l as [|x l IH]; intros H; [done|]. rewrite lsum_cons, H, IH; [done| |left]. intros y Hy. apply H. by right. Qed.
Lemma lsum_pend_map {A} f (g : A → op) (l : list A) : (∀ a, pend f (g a) = 0) → lsum (pend f) (map g l) = 0.
Proof. intros H. induction l as [|x l IH]; [done|]. simpl. by rewrite lsum_cons, H, IH. Qed.
Lemma occ_concat f (m : gmap nat (nat * list nat)) : occ f (concat ((λ e, e.2.2) <$> map_to_list m)) = msum (λ x, occ f x.2) m.
Proof.
  rewrite msum_lsum. induction (map_to_list m) as [|x l IH]; [done|]. rewrite fmap_cons. cbn [concat]. by rewrite occ_app, lsum_cons, IH.
Qed.
Lemma lsum_filter_split {A} (F : A → nat) (P : A → Prop) `{!∀ x, Decision (P x)} l : lsum F l = lsum F (filter P l) + lsum F (filter (λ x, ¬ P x) l).
Proof.
  induction l as [|x l IH]; [done|]. rewrite lsum_cons. destruct (decide (P x)) as [Hp|Hp].
  - rewrite filter_cons_True by done. rewrite (filter_cons_False (λ x, ¬ P x)) by (intros ?; done). rewrite lsum_cons. lia.
  - rewrite filter_cons_False by done. rewrite (filter_cons_True (λ x, ¬ P x)) by done. rewrite lsum_cons. lia.
Qed.

Lemma Forall_release l : Forall (λ x, ∃ f, x = ORelease f) (map ORelease l).
Proof. induction l; constructor; eauto. Qed.

Section inv.
  Context (core : nat → nat) (tracked : nat → bool) (kids : nat → list nat).
  Context (rank : nat → nat) (Hrank : ∀ f g, g ∈ kids f → rank g < rank f).
  Notation step := (step core tracked kids).
  Notation run := (run core tracked kids).
  Notation exec := (exec core tracked kids).
  Notation needs := (needs core tracked kids).
  Notation allowed := (allowed core tracked kids).

  Lemma needs_kid f g c : g ∈ kids f → needs g c → needs f c.
  Proof. intros Hg (h&H1&H2). exists h. split; [|done]. by eapply rtc_l. Qed.

  (** [G]: the user has respected [allowed] so far *)
  Record Inv (G : bool) (s : state) : Prop := {
    v_s : SInv s;
    v_exit : exiting s = true → G = true ∧ Forall (λ x, ∃ f, x = ORelease f) (todo s) ∧ ∀ o f, (o, f) ∈ owns s → DObj o ∈ stack s;
    v_live f : 0 < refs s f → tracked (core f) = true ∨ exiting s = false → is_Some (ents s !! f);
    v_own o f : (o, f) ∈ owns s → is_Some (ents s !! f);
    v_ent f n ks : ents s !! f = Some (n, ks) → ks = kids f ∧ hold s (core f) = Alive ∧ (tracked (core f) = true → n = refs s f ∧ 0 < n);
    v_obj : G = true → ∀ o f c, (o, f) ∈ owns s → DObj o ∈ stack s → c = core f ∨ needs f c → before (DObj o) (DHolder c) (stack s);
    v_unt : G = true → ∀ f g c, is_Some (ents s !! f) → tracked (core f) = false → g ∈ kids f → needs g c →
              before (DHolder (core f)) (DHolder c) (stack s);
  }.

  Lemma start_inv G : Inv G start.
  Proof. split; simpl; try done. - apply start_sinv. - intros f H. exfalso. unfold refs_of in H. simpl in H. rewrite msum_empty, !lsum_nil in H. lia.
    - by intros o f ?%elem_of_nil. - intros _ o f c ?%elem_of_nil. done. - intros _ f g c [? H]. done. Qed.

  Lemma refs_own s o f : (o, f) ∈ owns s → 0 < refs s f.
  Proof. intros H. unfold refs_of. pose proof (lsum_elem (own1 f) _ _ H) as Hl. unfold own1 at 1 in Hl. simpl in Hl. rewrite decide_True in Hl by done. lia. Qed.
  Lemma refs_ent s f g n ks : ents s !! f = Some (n, ks) → g ∈ ks → 0 < refs s g.
  Proof. intros H Hg%occ_pos. unfold refs_of. pose proof (msum_ge (λ x, occ g x.2) _ _ _ H). simpl in *. lia. Qed.
  Lemma refs_pend s f : ORelease f ∈ todo s → 0 < refs s f.
  Proof. intros H. unfold refs_of. pose proof (lsum_elem (pend f) _ _ H) as Hl. simpl in Hl. rewrite decide_True in Hl by done. lia. Qed.

  (** before exit everything within a flyweight that exists is there *)
  Lemma inv_reach G s f g : Inv G s → exiting s = false → is_Some (ents s !! f) → rtc (kid kids) f g → is_Some (ents s !! g).
  Proof.
    intros HI He Hf Hr. revert Hf. induction Hr as [f|f h g Hk _ IH]; intros Hf; [done|]. apply IH. destruct Hf as [[n ks] Hf].
    destruct (v_ent _ _ HI f n ks Hf) as (->&_&_). apply (v_live _ _ HI); [by eapply refs_ent|by right].
  Qed.
  Lemma inv_needs G s f c : Inv G s → exiting s = false → is_Some (ents s !! f) → c = core f ∨ needs f c → DHolder c ∈ stack s.
  Proof.
    intros HI He Hf Hn. assert (∃ g, is_Some (ents s !! g) ∧ core g = c) as (g&[[n ks] Hg]&<-).
    { destruct Hn as [->|(g&Hr&E&_)]; [eauto|]. exists g. split; [by eapply inv_reach|done]. }
    apply (s_hold _ (v_s _ _ HI)). by eapply v_ent.
  Qed.

  (** a state differing only in [todo], without change in the destructions under way *)
  Lemma inv_todo G s k : Inv G s → (∀ f, lsum (pend f) k = lsum (pend f) (todo s)) → (exiting s = true → Forall (λ x, ∃ f, x = ORelease f) k) → Inv G (set_todo k s).
  Proof.
    intros HI Hk Hx. assert (Hr : ∀ f, refs (set_todo k s) f = refs s f) by (intros f; unfold refs_of; simpl; by rewrite Hk).
    destruct HI as [H1 H2 H3 H4 H5 H6 H7]. split; try done.
    - by eapply sinv_eq.
    - simpl. intros He. destruct (H2 He) as (?&_&?). auto.
    - intros f. rewrite Hr. apply H3.
    - intros f n ks. rewrite Hr. apply H5.
  Qed.
  Lemma inv_init G c s : Inv G s → Inv G (init c s).
  Proof.
    intros HI. pose proof (v_s _ _ HI) as HS. destruct (init_rest c s HS) as (E1&E2&E3&E4&E5). destruct HI as [H1 H2 H3 H4 H5 H6 H7].
    assert (Hst : ∀ d e, before d e (stack s) → before d e (stack (init c s))).
    { intros d e Hb. destruct E5 as [[-> _]|(_&->&_)]; [done|by apply before_cons]. }
    assert (Hin : ∀ o, DObj o ∈ stack (init c s) ↔ DObj o ∈ stack s).
    { intros o. destruct E5 as [[-> _]|(_&->&_)]; [done|]. rewrite elem_of_cons. split; [intros [[=]|?]; done|by right]. }
    split; rewrite ?E1, ?E2, ?E3, ?E4; try done.
    - by apply init_sinv.
    - intros He. destruct (H2 He) as (?&?&H). split_and!; [done|done|]. intros o f Hof. apply Hin. by eapply H.
    - intros f n ks Hf. destruct (H5 f n ks Hf) as (?&Ha&?). split_and!; [done| |done].
      destruct E5 as [[_ ->]|(Hr&_&->)]; [done|]. destruct (decide (core f = c)) as [->|]; [by rewrite upd_eq|by rewrite upd_ne].
    - intros HG o f c' Hof Ho%Hin Hc. by eapply Hst, H6.
    - intros HG f g c' Hf Ht Hg Hc. by eapply Hst, H7.
  Qed.
  Lemma init_alive G c s : Inv G s → exiting s = false → hold (init c s) c = Alive.
  Proof.
    intros HI He. pose proof (v_s _ _ (inv_init G c s HI)) as HS. pose proof (init_hold c s (v_s _ _ HI)) as Hr.
    destruct (init_rest c s (v_s _ _ HI)) as (_&_&_&E&_). pose proof (s_dead _ HS c) as Hd. rewrite E in Hd. specialize (Hd He). by destruct (hold (init c s) c).
  Qed.

  Definition ok (G : bool) (r : res) : Prop := match r with Next s => Inv G s | Stuck => True | Undef => False end.

  (** [s] is the state before; the operation has been taken from [todo] *)
  Lemma exec_inv G s x k : Inv G s → todo s = x :: k → (G = true → allowed s LStep) → ok G (exec x (set_todo k s)).
  Proof.
    intros HI Ht HG. simpl in HG. rewrite Ht in HG. set (s0 := set_todo k s).
    assert (Hx : exiting s = true → ∃ f, x = ORelease f). { intros He. destruct (v_exit _ _ HI He) as (_&Hf&_). rewrite Ht in Hf. by inversion Hf. }
    assert (Hxk : exiting s = true → Forall (λ x, ∃ f, x = ORelease f) k). { intros He. destruct (v_exit _ _ HI He) as (_&Hf&_). rewrite Ht in Hf. by inversion Hf. }
    assert (H0 : (∀ f, pend f x = 0) → Inv G s0).
    { intros Hp. apply inv_todo; [done| |done]. intros f. by rewrite Ht, lsum_cons, Hp. }
    destruct x as [c|c|f o|o f|o f|o|f o|f].
    - apply inv_init, H0. done.
    - simpl. specialize (H0 (λ _, eq_refl)). pose proof (inv_init G c s0 H0) as [H1 H2 H3 H4 H5 H6 H7]. split; try done.
      destruct H1 as [K1 K2 K3 K4 K5 K6]. split; simpl; try done; intros c'; unfold upd; case_decide; subst; auto.
    - simpl. specialize (H0 (λ _, eq_refl)). apply (inv_todo G s0 (map (λ g, OMake g 0) (kids f) ++ OInsert f o :: k)); [done| |].
      + intros h. rewrite lsum_app, lsum_pend_map by done. done.
      + intros He. by destruct (Hx He).
    - (* drop *) simpl. destruct (list_remove (o, f) (owns s)) as [w|] eqn:Ew; [|done]. apply list_remove_Some in Ew.
      assert (exiting s = false) as He. { destruct (exiting s) eqn:He; [|done]. by destruct (Hx eq_refl). }
      destruct HI as [H1 H2 H3 H4 H5 H6 H7].
      assert (Hr : ∀ g, refs_of w (ents s) (ORelease f :: k) g = refs s g).
      { intros g. unfold refs_of. rewrite Ht, (lsum_perm _ _ _ Ew), !lsum_cons. change (own1 g (o, f)) with (if decide (g = f) then 1 else 0). simpl. lia. }
      split; simpl; try done.
      + by eapply sinv_eq.
      + congruence.
      + intros g. rewrite Hr. apply H3.
      + intros o' g Hg. apply (H4 o'). rewrite Ew. by right.
      + intros g n ks. rewrite Hr. apply H5.
      + intros HG' o' g c Hg. apply H6; [done|]. rewrite Ew. by right.
    - (* use *) simpl. case_bool_decide as Hin; [|done]. specialize (H0 (λ _, eq_refl)).
      destruct (v_own _ _ H0 o f Hin) as [[n ks] Hf]. destruct (v_ent _ _ H0 f n ks Hf) as (_&Ha&_).
      unfold look. rewrite (sinv_ready _ _ (v_s _ _ H0)), bool_decide_eq_true_2 by done. rewrite bool_decide_eq_true_2; [done|]. rewrite Hf. by eexists.
    - (* reg *) simpl. case_bool_decide as Hin; [done|]. specialize (H0 (λ _, eq_refl)).
      assert (exiting s = false) as He. { destruct (exiting s) eqn:He; [|done]. by destruct (Hx eq_refl). }
      assert (SInv (set_stack (DObj o :: stack s) s0)) as HS.
      { eapply (exec_sinv core tracked kids (OReg o) s0); [apply H0|]. simpl. by rewrite bool_decide_eq_false_2. }
      pose proof (λ f c, inv_needs G s0 f c H0 He) as Hnd. destruct H0 as [H1 H2 H3 H4 H5 H6 H7]. split; simpl; try done.
      + simpl. congruence.
      + intros HG' o' f c Hof Ho Hc. apply elem_of_cons in Ho as [Ho|Ho]; [|by eapply before_cons, H6]. injection Ho as ->. apply before_top.
        apply (Hnd f); [by eapply H4|done].
      + intros HG' f g c Hf Htr Hg Hc. by eapply before_cons, H7.
    - (* insert *) specialize (H0 (λ _, eq_refl)). simpl.
      assert (exiting s = false) as He. { destruct (exiting s) eqn:He; [|done]. by destruct (Hx eq_refl). }
      pose proof (inv_init G (core f) s0 H0) as H1'. pose proof (init_alive G (core f) s0 H0 He) as Hal.
      destruct (init_rest (core f) s0 (v_s _ _ H0)) as (E1&E2&E3&E4&E5). set (s1 := init (core f) s0) in *.
      rewrite (sinv_ready _ _ (v_s _ _ H1')), bool_decide_eq_true_2 by done. simpl.
      assert (Hst1 : stack (init (core f) s) = stack s1).
      { unfold s1, s0. destruct (decide (hold s (core f) = Raw)) as [Hr|Hr].
        - rewrite init_new by (done || apply HI). rewrite (init_new (core f) (set_todo k s)); [|apply H0|done]. unfold get. simpl. by destruct (decide (hold s (core f) = Raw)).
        - rewrite init_id by (done || apply HI). rewrite init_id; [done|apply H0|done]. }
      assert (Hobj : G = true → DObj o ∈ stack s1 → ∀ c, c = core f ∨ needs f c → before (DObj o) (DHolder c) (stack s1)).
      { intros HG' Ho c Hc. destruct (HG HG') as [Ha _].
        assert (DObj o ∈ stack s) as Ho'. { destruct E5 as [[E _]|(_&E&_)]; rewrite E in Ho; [done|]. by apply elem_of_cons in Ho as [[=]|Ho]. }
        specialize (Ha Ho' c Hc). destruct E5 as [[E _]|(_&E&_)]; rewrite E; [done|by apply before_cons]. }
      assert (Hunt : G = true → tracked (core f) = false → ∀ g c, g ∈ kids f → needs g c → before (DHolder (core f)) (DHolder c) (stack s1)).
      { intros HG' Htr g c Hg Hc. destruct (HG HG') as [_ Hu]. rewrite <- Hst1. by eapply Hu. }
      pose proof (λ f c, inv_needs G s1 f c H1' (eq_trans E4 He)) as Hnd.
      assert (He1 : exiting s1 = false) by (by rewrite E4).
      destruct (ents s1 !! f) as [[n ks]|] eqn:Ef.
      + (* found *) destruct H1' as [H1 H2 H3 H4 H5 H6 H7].
        assert (Hr : ∀ g, refs_of ((o, f) :: owns s1) (<[f:=(S n, ks)]> (ents s1)) (map (ODrop 0) (kids f) ++ todo s1) g = refs s1 g + (if decide (g = f) then 1 else 0)).
        { intros g. unfold refs_of. rewrite lsum_cons, lsum_app, lsum_pend_map by done. pose proof (msum_upd (λ x, occ g x.2) _ _ _ (S n, ks) Ef) as Hm. simpl in Hm.
          change (own1 g (o, f)) with (if decide (g = f) then 1 else 0). simpl. lia. }
        assert (Hdom : ∀ g, is_Some (ents s1 !! g) → is_Some (<[f:=(S n, ks)]> (ents s1) !! g)).
        { intros g Hg. destruct (decide (g = f)) as [->|]; [rewrite lookup_insert; by eexists|by rewrite lookup_insert_ne]. }
        split; simpl; try done.
        * by eapply sinv_eq.
        * congruence.
        * intros g. rewrite Hr. destruct (decide (g = f)) as [->|Hne]; [intros; rewrite lookup_insert; by eexists|].
          rewrite lookup_insert_ne by done. rewrite Nat.add_0_r. apply H3.
        * intros o' g [Hg|Hg]%elem_of_cons; [simplify_eq; rewrite lookup_insert; by eexists|]. by apply Hdom, (H4 o').
        * intros g n' ks' Hg. rewrite Hr. destruct (decide (g = f)) as [->|Hne].
          -- rewrite lookup_insert in Hg. simplify_eq. destruct (H5 f n ks' Ef) as (?&?&H). split_and!; [done|done|]. intros Htr. destruct (H Htr). lia.
          -- rewrite lookup_insert_ne in Hg by done. rewrite Nat.add_0_r. by apply H5.
        * intros HG' o' g c [Hg|Hg]%elem_of_cons Ho' Hc; [simplify_eq; by apply Hobj|by eapply H6].
        * intros HG' f' g c Hf'. apply (H7 HG' f' g c). destruct (decide (f' = f)) as [->|]; [rewrite Ef; by eexists|by rewrite lookup_insert_ne in Hf'].
      + (* new *) destruct (list_remove_list _ _) as [w|] eqn:Ew; [|done]. apply remove_perm in Ew.
        destruct H1' as [H1 H2 H3 H4 H5 H6 H7].
        assert (Hr0 : refs s1 f = 0). { destruct (refs s1 f) eqn:E0; [done|]. destruct (H3 f) as [? H]; [rewrite E0; lia|by right|congruence]. }
        assert (Hr : ∀ g, refs_of ((o, f) :: w) (<[f:=(1, kids f)]> (ents s1)) (todo s1) g = refs s1 g + (if decide (g = f) then 1 else 0)).
        { intros g. unfold refs_of. rewrite lsum_cons, (lsum_perm _ _ _ Ew), lsum_app, lsum_own1_map. rewrite msum_new by done. simpl.
          change (own1 g (o, f)) with (if decide (g = f) then 1 else 0). simpl. lia. }
        assert (Hdom : ∀ g, is_Some (ents s1 !! g) → is_Some (<[f:=(1, kids f)]> (ents s1) !! g)).
        { intros g Hg. destruct (decide (g = f)) as [->|]; [rewrite lookup_insert; by eexists|by rewrite lookup_insert_ne]. }
        split; simpl; try done.
        * by eapply sinv_eq.
        * congruence.
        * intros g. rewrite Hr. destruct (decide (g = f)) as [->|Hne]; [intros; rewrite lookup_insert; by eexists|].
          rewrite lookup_insert_ne by done. rewrite Nat.add_0_r. apply H3.
        * intros o' g [Hg|Hg]%elem_of_cons; [simplify_eq; rewrite lookup_insert; by eexists|]. apply Hdom, (H4 o'). rewrite Ew. apply elem_of_app. by right.
        * intros g n' ks' Hg. rewrite Hr. destruct (decide (g = f)) as [->|Hne].
          -- rewrite lookup_insert in Hg. simplify_eq. split_and!; [done|done|]. intros _. rewrite Hr0. lia.
          -- rewrite lookup_insert_ne in Hg by done. rewrite Nat.add_0_r. by apply H5.
        * intros HG' o' g c [Hg|Hg]%elem_of_cons Ho' Hc; [simplify_eq; by apply Hobj|]. eapply H6; [done| |done|done]. rewrite Ew. apply elem_of_app. by right.
        * intros HG' f' g c Hf'. destruct (decide (f' = f)) as [->|]; [intros; by eapply Hunt|]. rewrite lookup_insert_ne in Hf' by done. by apply (H7 HG' f' g c).
    - (* release *) simpl. clear H0 HG.
      assert (Hk : ∀ g, refs s g = refs_of (owns s) (ents s) k g + (if decide (g = f) then 1 else 0)).
      { intros g. unfold refs_of. rewrite Ht, lsum_cons. simpl. lia. }
      destruct (tracked (core f)) eqn:Htr; simpl.
      + assert (is_Some (ents s !! f)) as [[n ks] Hf]. { apply (v_live _ _ HI); [|by left]. rewrite Hk, decide_True by done. lia. }
        destruct (v_ent _ _ HI f n ks Hf) as (->&Ha&Hn). destruct (Hn Htr) as [Hn' Hp]. clear Hn.
        assert (SInv s0) as HS0 by (by eapply sinv_eq; [apply (v_s _ _ HI)|..]).
        rewrite (sinv_ready _ _ HS0), bool_decide_eq_true_2 by done. simpl. rewrite Hf.
        destruct (decide (n = 1)) as [->|Hne].
        * (* erased *) rewrite (init_id (core f) s0) by (try done; simpl; rewrite Ha; done). destruct HI as [H1 H2 H3 H4 H5 H6 H7].
          assert (Hr : ∀ g, refs_of (owns s) (delete f (ents s)) (map ORelease (kids f) ++ k) g = refs_of (owns s) (ents s) k g).
          { intros g. unfold refs_of. rewrite lsum_app, lsum_pend_rel. pose proof (msum_delete (λ x, occ g x.2) _ _ _ Hf) as Hm. simpl in Hm. lia. }
          assert (Hf0 : refs_of (owns s) (ents s) k f = 0). { rewrite Hk, decide_True in Hn' by done. lia. }
          assert (Hle : ∀ g, refs_of (owns s) (ents s) k g ≤ refs s g) by (intros g; rewrite Hk; lia).
          split; simpl; try done.
          -- by eapply sinv_eq.
          -- intros He. destruct (H2 He) as (?&_&?). split_and!; [done| |done]. apply Forall_app. split; [|by apply Hxk].
             clear. induction (kids f); constructor; eauto.
          -- intros g. rewrite Hr. intros Hpos Hor. destruct (decide (g = f)) as [->|]; [lia|]. rewrite lookup_delete_ne by done. apply H3; [|done]. specialize (Hle g). lia.
          -- intros o' g Hg. destruct (decide (g = f)) as [->|]; [|rewrite lookup_delete_ne by done; by eapply H4].
             exfalso. unfold refs_of in Hf0. pose proof (lsum_elem (own1 f) _ _ Hg) as Hl. unfold own1 at 1 in Hl. simpl in Hl. rewrite decide_True in Hl by done. lia.
          -- intros g n' ks' Hg. apply lookup_delete_Some in Hg as [Hne Hg]. rewrite Hr. destruct (H5 g n' ks' Hg) as (?&?&H). split_and!; [done|done|].
             rewrite Hk, decide_False, Nat.add_0_r in H by done. done.
          -- intros HG' f' g c [x Hf']. apply lookup_delete_Some in Hf' as [_ Hf']. apply (H7 HG' f' g c). by eexists.
        * destruct HI as [H1 H2 H3 H4 H5 H6 H7].
          assert (Hr : ∀ g, refs_of (owns s) (<[f:=(n - 1, kids f)]> (ents s)) k g = refs_of (owns s) (ents s) k g).
          { intros g. unfold refs_of. pose proof (msum_upd (λ x, occ g x.2) _ _ _ (n - 1, kids f) Hf) as Hm. simpl in Hm. lia. }
          assert (Hdom : ∀ g, is_Some (ents s !! g) → is_Some (<[f:=(n - 1, kids f)]> (ents s) !! g)).
          { intros g Hg. destruct (decide (g = f)) as [->|]; [rewrite lookup_insert; by eexists|by rewrite lookup_insert_ne]. }
          assert (Hle : ∀ g, refs_of (owns s) (ents s) k g ≤ refs s g) by (intros g; rewrite Hk; lia).
          split; simpl; try done.
          -- by eapply sinv_eq.
          -- intros He. destruct (H2 He) as (?&_&?). auto.
          -- intros g. rewrite Hr. intros Hpos Hor. apply Hdom, H3; [|done]. specialize (Hle g). lia.
          -- intros o' g Hg. by eapply Hdom, H4.
          -- intros g n' ks' Hg. rewrite Hr. destruct (decide (g = f)) as [->|].
             ++ rewrite lookup_insert in Hg. simplify_eq. split_and!; [done|done|]. intros _. rewrite Hk, decide_True in * by done. lia.
             ++ rewrite lookup_insert_ne in Hg by done. destruct (H5 g n' ks' Hg) as (?&?&H). rewrite Hk, decide_False, Nat.add_0_r in H by done. done.
          -- intros HG' f' g c Hf'. apply (H7 HG' f' g c). destruct (decide (f' = f)) as [->|]; [rewrite Hf; by eexists|by rewrite lookup_insert_ne in Hf'].
      + destruct HI as [H1 H2 H3 H4 H5 H6 H7]. split; simpl; try done.
        * by eapply sinv_eq.
        * intros He. destruct (H2 He) as (?&_&?). auto.
        * intros g Hpos. apply H3. rewrite Hk. lia.
        * intros g n ks Hg. destruct (H5 g n ks Hg) as (?&?&H). split_and!; [done|done|]. intros Hg'. rewrite Hk in H. rewrite decide_False, Nat.add_0_r in H by congruence. auto.
  Qed.

  (** when the holder of a refcounted class is destroyed no entry is left that
      could reach it *)
  Lemma none_left s c k : Inv true s → exiting s = true → todo s = [] → stack s = DHolder c :: k →
    ∀ f, is_Some (ents s !! f) → tracked (core f) = true → needs f c → False.
  Proof.
    intros HI He Ht Hk. pose proof (s_nodup _ (v_s _ _ HI)) as Hnd. rewrite Hk in Hnd.
    assert (∃ B, ∀ f, is_Some (ents s !! f) → rank f ≤ B) as [B HB].
    { exists (lsum (λ e, rank e.1) (map_to_list (ents s))). intros f [x Hx]. apply elem_of_map_to_list in Hx. by apply (lsum_elem (λ e : nat * (nat * list nat), rank e.1) (f, x)). }
    intros f. remember (B - rank f) as d eqn:Ed. revert f Ed. induction (lt_wf d) as [d _ IH]. intros f -> [[n ks] Hf] Htr Hc.
    destruct (v_ent _ _ HI f n ks Hf) as (->&_&Hn). destruct (Hn Htr) as [Hn' Hp]. unfold refs_of in Hn'. rewrite Ht, lsum_nil in Hn'.
    destruct (decide (0 < lsum (own1 f) (owns s))) as [Ho|Ho].
    - apply lsum_pos in Ho as ([o g]&Ho&Hg). unfold own1 in Hg. simpl in Hg. destruct (decide (f = g)) as [<-|]; [|lia].
      destruct (v_exit _ _ HI He) as (_&_&Hreg). pose proof (v_obj _ _ HI eq_refl o f c Ho (Hreg o f Ho) (or_intror Hc)) as Hb.
      rewrite Hk in Hb. by apply before_not_top in Hb.
    - assert (0 < msum (λ x, occ f x.2) (ents s)) as Hm by lia. apply msum_pos in Hm as (g&[n' ks']&Hg&Hocc). simpl in Hocc. apply occ_pos in Hocc.
      destruct (v_ent _ _ HI g n' ks' Hg) as (->&_&_). destruct (tracked (core g)) eqn:Htg.
      + eapply (IH (B - rank g)); [|done| |done|by eapply needs_kid]; [|rewrite Hg; by eexists]. pose proof (Hrank g f Hocc). assert (rank g ≤ B) by (apply HB; rewrite Hg; by eexists). lia.
      + pose proof (v_unt _ _ HI eq_refl g f c) as Hb. rewrite Hk in Hb. eapply before_not_top; [exact Hnd|]. apply Hb; [rewrite Hg; by eexists|done|done|done].
  Qed.

  Lemma pop_inv s : Inv true s → exiting s = true → todo s = [] → ok true (pop core s).
  Proof.
    intros HI He Ht. pose proof (v_s _ _ HI) as HS. unfold pop. destruct (stack s) as [|[c|o] k] eqn:Hk; [done| |].
    - (* holder *) pose proof (none_left s c k HI He Ht Hk) as Hnone. pose proof (s_nodup _ HS) as Hnd. rewrite Hk in Hnd.
      set (gone := filter (λ e : nat * (nat * list nat), core e.1 = c) (ents s)).
      set (rest := filter (λ e : nat * (nat * list nat), core e.1 ≠ c) (ents s)).
      assert (Hr : ∀ g, refs_of (owns s) rest (map ORelease (concat ((λ e, e.2.2) <$> map_to_list gone))) g = refs s g).
      { intros g. unfold refs_of. rewrite lsum_pend_rel, occ_concat, Ht, lsum_nil. unfold gone, rest.
        rewrite (msum_filter (λ x, occ g x.2) (λ e : nat * (nat * list nat), core e.1 = c) (ents s)). lia. }
      assert (Hrest : ∀ f x, rest !! f = Some x ↔ ents s !! f = Some x ∧ core f ≠ c).
      { intros f x. unfold rest. by rewrite map_filter_lookup_Some. }
      assert (Hkeep : ∀ f, is_Some (ents s !! f) → core f ≠ c → is_Some (rest !! f)).
      { intros f [x Hf] Hc. exists x. by apply Hrest. }
      assert (Htop : ∀ o f, (o, f) ∈ owns s → core f ≠ c).
      { intros o f Hof Hc. destruct (v_exit _ _ HI He) as (_&_&Hreg).
        pose proof (v_obj _ _ HI eq_refl o f c Hof (Hreg o f Hof) (or_introl (eq_sym Hc))) as Hb. rewrite Hk in Hb. by apply before_not_top in Hb. }
      assert (HS' : SInv (set_todo [] (set_hold c Dead (set_stack k s)))).
      { assert (step s LPop = pop core s) as Es by (simpl; by rewrite Ht, He). unfold pop in Es. rewrite Hk in Es.
        eapply sinv_eq; [eapply (step_sinv core tracked kids); [exact HS|exact Es]|..]; done. }
      destruct HI as [H1 H2 H3 H4 H5 H6 H7]. split; simpl; try done.
      + by eapply sinv_eq.
      + intros _. destruct (H2 He) as (_&_&Hreg). split_and!; [done| |].
        * apply Forall_release.
        * intros o f Hof. specialize (Hreg o f Hof). rewrite Hk in Hreg. by apply elem_of_cons in Hreg as [[=]|?].
      + intros f. rewrite Hr. intros Hp [Htr|]; [|congruence]. specialize (H3 f Hp (or_introl Htr)). apply Hkeep; [done|]. intros Hc.
        apply (Hnone f H3 Htr). exists f. split_and!; [done|done|congruence].
      + intros o f Hof. apply Hkeep; [by eapply H4|by eapply Htop].
      + intros f n ks [Hf Hc]%Hrest. rewrite Hr. destruct (H5 f n ks Hf) as (?&?&?). split_and!; [done| |done]. by rewrite upd_ne.
      + intros _ o f c' Hof Ho Hc. apply (before_tail _ _ (DHolder c)); [|done]. rewrite <- Hk. apply (H6 eq_refl o f c'); [done| |done]. rewrite Hk. by right.
      + intros _ f g c' [x [Hf Hcf]%Hrest] Htr Hg Hc. apply (before_tail _ _ (DHolder c)); [|congruence]. rewrite <- Hk. apply (H7 eq_refl f g c'); [by eexists|done|done|done].
    - (* object *) assert (Hlook : forallb (look core s) (filter (λ p, p.1 = o) (owns s)).*2 = true).
      { apply forallb_forall. intros f Hf%elem_of_list_In. apply elem_of_list_fmap in Hf as ([o' f']&->&Hf). apply elem_of_list_filter in Hf as [_ Hf]. simpl.
        destruct (v_own _ _ HI o' f' Hf) as [[n ks] Hf']. destruct (v_ent _ _ HI f' n ks Hf') as (_&Ha&_).
        unfold look. rewrite (sinv_ready _ _ HS), bool_decide_eq_true_2 by done. rewrite Hf'. by rewrite bool_decide_eq_true_2 by (by eexists). }
      assert (Hs' : SInv (set_stack k s)).
      { assert (step s LPop = pop core s) as Es by (simpl; by rewrite Ht, He). unfold pop in Es. rewrite Hk, Hlook in Es.
        eapply sinv_eq; [eapply (step_sinv core tracked kids); [exact HS|exact Es]|..]; done. }
      rewrite Hlook. pose proof (s_nodup _ HS) as Hnd. rewrite Hk in Hnd. apply NoDup_cons in Hnd as [Hn Hnd]. destruct HI as [H1 H2 H3 H4 H5 H6 H7].
      assert (Hr : ∀ g, refs_of (filter (λ p, p.1 ≠ o) (owns s)) (ents s) (map ORelease (filter (λ p, p.1 = o) (owns s)).*2) g = refs s g).
      { intros g. unfold refs_of. rewrite lsum_pend_rel, Ht, lsum_nil, <- lsum_own1_snd. rewrite (lsum_filter_split (own1 g) (λ p, p.1 = o) (owns s)). lia. }
      split; simpl; try done.
      + by eapply sinv_eq.
      + intros _. destruct (H2 He) as (_&_&Hreg). split_and!; [done| |].
        * apply Forall_release.
        * intros o' f [Hne Hof]%elem_of_list_filter. specialize (Hreg o' f Hof). rewrite Hk in Hreg. apply elem_of_cons in Hreg as [Hreg|?]; [|done]. simpl in Hne. congruence.
      + intros f. rewrite Hr. apply H3.
      + intros o' f [_ Hof]%elem_of_list_filter. by eapply H4.
      + intros f n ks. rewrite Hr. apply H5.
      + intros _ o' f c [Hne Hof]%elem_of_list_filter Ho Hc. simpl in Hne. apply (before_tail _ _ (DObj o)); [|congruence]. rewrite <- Hk. apply (H6 eq_refl o' f c); [done| |done]. rewrite Hk. by right.
      + intros _ f g c Hf Htr Hg Hc. apply (before_tail _ _ (DObj o)); [|done]. rewrite <- Hk. by eapply (H7 eq_refl f g c).
  Qed.

  Lemma step_inv G s l : Inv G s → (G = true → allowed s l) → (G = false → l ≠ LExit) → ok G (step s l).
  Proof.
    intros HI Ha Hl. destruct l as [x| | |]; simpl.
    - destruct (exiting s) eqn:He; [done|]. destruct (user x) eqn:Hu; [|done]. apply inv_todo; [done| |congruence].
      intros f. rewrite lsum_cons. by destruct x.
    - destruct (todo s) as [|x k] eqn:Et; [done|]. by apply exec_inv.
    - destruct (todo s) as [|x k] eqn:Et; [|done]. destruct (exiting s) eqn:He; [done|]. destruct G; [|by destruct Hl]. destruct HI as [H1 H2 H3 H4 H5 H6 H7].
      split; simpl; try done.
      + by eapply sinv_eq.
      + intros _. split_and!; [done|constructor|]. apply Ha. done.
      + intros f Hp _. rewrite <- Et in Hp. apply H3; [done|by right].
      + intros f n ks. rewrite <- Et. apply H5.
    - destruct (todo s) as [|x k] eqn:Et; [|done]. destruct (exiting s) eqn:He; [|done]. destruct (v_exit _ _ HI He) as (->&_&_). by apply pop_inv.
  Qed.
  Lemma run_inv ls : ∀ s, Inv true s → guarded core tracked kids s ls → ok true (run s ls).
  Proof.
    induction ls as [|l ls IH]; intros s HI Hg; simpl in *; [done|]. destruct Hg as [Ha Hg]. pose proof (step_inv true s l HI (λ _, Ha)) as H. destruct (step s l).
    - apply IH; [by apply H|done].
    - by apply IH.
    - by apply H.
  Qed.
  Lemma run_inv_noexit ls : ∀ s, Inv false s → LExit ∉ ls → ok false (run s ls).
  Proof.
    induction ls as [|l ls IH]; intros s HI Hg; simpl in *; [done|]. apply not_elem_of_cons in Hg as [Hl Hg].
    pose proof (step_inv false s l HI) as H. destruct (step s l).
    - apply IH; [apply H; congruence|done].
    - by apply IH.
    - apply H; congruence.
  Qed.
End inv.
