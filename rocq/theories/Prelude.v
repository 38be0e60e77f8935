(** Counting lemmas on lists and finite maps used by all machines.
    Nothing here models code of /repo. *)
From stdpp Require Export base gmap list numbers sets.
From Coq Require Export Lia.

Definition b2n (b : bool) : nat := if b then 1 else 0.

(** number of occurrences of [a] in [l] *)
Definition occ (a : nat) (l : list nat) : nat :=
  sum_list_with (λ b, if decide (a = b) then 1 else 0) l.

Lemma occ_nil a : occ a [] = 0.
Proof. done. Qed.
Lemma occ_cons a b l : occ a (b :: l) = (if decide (a = b) then 1 else 0) + occ a l.
Proof. done. Qed.
Lemma occ_app a l k : occ a (l ++ k) = occ a l + occ a k.
Proof. apply sum_list_with_app. Qed.
Lemma occ_pos a l : 0 < occ a l ↔ a ∈ l.
Proof.
  induction l as [|b l IH].
  - rewrite occ_nil. split; [lia|]. by intros ?%elem_of_nil.
  - rewrite occ_cons, elem_of_cons. case_decide; subst; split; intros; auto; try lia.
    + right. apply IH. lia.
    + destruct H0 as [->|H0]; [done|]. apply IH in H0. lia.
Qed.
Lemma occ_perm a l k : l ≡ₚ k → occ a l = occ a k.
Proof.
  induction 1; rewrite ?occ_cons; lia.
Qed.

Section lsum.
  Context {A : Type}.
  Implicit Types f : A → nat.
  Definition lsum f (l : list A) : nat := sum_list_with f l.
  Lemma lsum_nil f : lsum f [] = 0.
  Proof. done. Qed.
  Lemma lsum_cons f x l : lsum f (x :: l) = f x + lsum f l.
  Proof. done. Qed.
  Lemma lsum_app f l k : lsum f (l ++ k) = lsum f l + lsum f k.
  Proof. apply sum_list_with_app. Qed.
  Lemma lsum_elem f x l : x ∈ l → f x ≤ lsum f l.
  Proof.
    induction 1; rewrite lsum_cons; lia.
  Qed.
  Lemma lsum_pos f l : 0 < lsum f l ↔ ∃ x, x ∈ l ∧ 0 < f x.
  Proof.
    split.
    - induction l as [|y l IH]; rewrite ?lsum_nil, ?lsum_cons; [lia|].
      intros H. destruct (f y) eqn:E.
      + destruct IH as (x&?&?); [lia|]. exists x. set_solver.
      + exists y. split; [set_solver|lia].
    - intros (x&Hx&?). pose proof (lsum_elem f x l Hx). lia.
  Qed.
  Lemma lsum_ext f g l : (∀ x, x ∈ l → f x = g x) → lsum f l = lsum g l.
  Proof.
    induction l as [|y l IH]; intros H; rewrite ?lsum_nil, ?lsum_cons; [done|].
    rewrite H by set_solver. rewrite IH; [done|]. set_solver.
  Qed.
End lsum.

Section msum.
  Context {A : Type}.
  Implicit Types f : A → nat.
  Implicit Types m : gmap nat A.
  Definition msum f m : nat := map_fold (λ _ x n, f x + n) 0 m.

  Lemma msum_empty f : msum f ∅ = 0.
  Proof. apply map_fold_empty. Qed.
  Lemma msum_new f m k x : m !! k = None → msum f (<[k:=x]> m) = f x + msum f m.
  Proof.
    intros H. unfold msum. rewrite map_fold_insert_L; [done| |done].
    intros. lia.
  Qed.
  Lemma msum_delete f m k x : m !! k = Some x → f x + msum f (delete k m) = msum f m.
  Proof.
    intros H. rewrite <- (insert_delete m k x H) at 2.
    rewrite msum_new; [done|]. apply lookup_delete.
  Qed.
  Lemma msum_upd f m k x y : m !! k = Some x → msum f (<[k:=y]> m) + f x = msum f m + f y.
  Proof.
    intros H. rewrite <- (insert_delete_insert m k y).
    rewrite msum_new by apply lookup_delete.
    rewrite <- (msum_delete f m k x H). lia.
  Qed.
  Lemma msum_ge f m k x : m !! k = Some x → f x ≤ msum f m.
  Proof. intros H. rewrite <- (msum_delete f m k x H). lia. Qed.
  Lemma msum_pos f m : 0 < msum f m ↔ ∃ k x, m !! k = Some x ∧ 0 < f x.
  Proof.
    split.
    - induction m as [|k x m Hk IH] using map_ind.
      + rewrite msum_empty. lia.
      + rewrite msum_new by done. intros H. destruct (f x) eqn:E.
        * destruct IH as (k'&x'&?&?); [lia|]. exists k', x'.
          rewrite lookup_insert_ne; [done|]. intros ->. congruence.
        * exists k, x. rewrite lookup_insert. split; [done|lia].
    - intros (k&x&H&?). pose proof (msum_ge f m k x H). lia.
  Qed.
  Lemma msum_zero f m : msum f m = 0 ↔ ∀ k x, m !! k = Some x → f x = 0.
  Proof.
    split.
    - intros H k x Hk. pose proof (msum_ge f m k x Hk). lia.
    - intros H. destruct (msum f m) eqn:E; [done|].
      destruct (proj1 (msum_pos f m)) as (k&x&Hk&?); [lia|].
      apply H in Hk. lia.
  Qed.
  Lemma msum_ext f g m : (∀ k x, m !! k = Some x → f x = g x) → msum f m = msum g m.
  Proof.
    induction m as [|k x m Hk IH] using map_ind; intros H.
    - by rewrite !msum_empty.
    - rewrite !msum_new by done. rewrite (H k x) by apply lookup_insert.
      rewrite IH; [done|]. intros k' x' ?. apply (H k').
      rewrite lookup_insert_ne; [done|]. intros ->. congruence.
  Qed.
End msum.
Global Arguments occ : simpl never.
Global Arguments lsum {_} _ _ : simpl never.
Global Arguments msum {_} _ _ : simpl never.
