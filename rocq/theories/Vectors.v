(** Objects and vectors of flyweights in the programs of [Client.v], and what is
    left of the objects when a scope is left. *)
From Verif Require Import SerializeProofs Policies Instances.
From Verif Require Export Client.

(** Vectors are lists of the names of their elements; objects get the names
    [nm 0], [nm 1], ...  [grows n]: what the vector does when the object that gets
    number [n] is appended. *)
Inductive growth := Fits | Moves | Fails.

Section Vectors.
  Context {A L O : Type} (nm : nat → var) (grows : nat → growth).
  Notation prog := (prog (A:=A) (L:=L) (O:=O)).

  Fixpoint destroy_all (xs : list var) (p : prog) : prog :=
    match xs with [] => p | x :: xs => Call (ODestroy x) (λ _, destroy_all xs p) end.
  Fixpoint copy_all (xs : list var) (n : nat) (k : list var → nat → prog) : prog :=
    match xs with
    | [] => k [] n
    | x :: xs => Call (OCopy (nm n) x) (λ _, copy_all xs (S n) (λ ys, k (nm n :: ys)))
    end.
  (** std::vector::push_back of a copy of [r]; moving a flyweight
      copies its handle (flyweight.hpp 216-219), so reallocation copies.  [f]: an exception *)
  Definition push_back (xs : list var) (r : var) (n : nat) (k : list var → nat → prog) (f : prog) : prog :=
    match grows n with
    | Fits => Call (OCopy (nm n) r) (λ _, k (xs ++ [nm n]) (S n))
    | Moves => Call (OCopy (nm n) r) (λ _, copy_all xs (S n) (λ ys m, destroy_all xs (k (ys ++ [nm n]) m)))
    | Fails => f
    end.
End Vectors.

(** ** With plain values *)
Lemma subtree_snoc {A} (T : tree A) p q : subtree T (p ++ q) = match subtree T p with Some U => subtree U q | None => None end.
Proof. revert T. induction p as [|j p IH]; intros [l ts]; [done|]. simpl. destruct (ts !! j); [apply IH|done]. Qed.
Section Wps.
  Context {A L O : Type} (nm : nat → var) (Hnm : ∀ i j, nm i = nm j → i = j) (grows : nat → growth) (makes : A → nat → L → Prop) (thr : bool).
  Definition named (x : var) : Prop := ∃ i, x = nm i.
  Notation prog := (prog (A:=A) (L:=L) (O:=O)).
  Notation env := (gmap var (tree L)).
  Notation wp := (wp (O:=O) named makes thr).
  Implicit Types (M : env) (Q : O → env → Prop).

  (** the objects and their values are exactly those of [l]; the next one gets
      the number [n] *)
  Definition have M (l : list (var * tree L)) (n : nat) : Prop :=
    NoDup l.*1 ∧ (∀ x T, M !! x = Some T ↔ (x, T) ∈ l) ∧ ∀ x, x ∈ l.*1 → ∃ i, x = nm i ∧ i < n.
  Lemma have_nothing : have ∅ [] 0.
  Proof. split; [constructor|]. split; [intros x T; rewrite lookup_empty; split; [done|by intros ?%not_elem_of_nil]|by intros x ?%not_elem_of_nil]. Qed.
  Lemma have_perm M l l' n : l ≡ₚ l' → have M l n → have M l' n.
  Proof. intros Hp (Hd&H&Hn). split; [by rewrite <- Hp|]. split; [intros x T; by rewrite <- Hp|]. intros x. rewrite <- Hp. auto. Qed.
  Lemma have_fresh M l n m : have M l n → n ≤ m → nm m ∉ l.*1.
  Proof. intros (_&_&Hn) Hm (i&Hi&?)%Hn. apply Hnm in Hi. lia. Qed.
  Lemma have_none M l n m : have M l n → n ≤ m → M !! nm m = None.
  Proof.
    intros Hh Hm. destruct (M !! nm m) as [T|] eqn:E; [|done]. destruct (have_fresh M l n m Hh Hm). destruct Hh as (_&H&_).
    apply elem_of_list_fmap. exists (nm m, T). split; [done|]. by apply H.
  Qed.
  Lemma have_new M l n m T : have M l n → n ≤ m → have (<[nm m:=T]> M) ((nm m, T) :: l) (S m).
  Proof.
    intros Hh Hm. pose proof (have_fresh M l n m Hh Hm) as Hf. destruct Hh as (Hd&H&Hn). split; [|split].
    - simpl. by constructor.
    - intros x U. rewrite elem_of_cons. destruct (decide (x = nm m)) as [->|Hx].
      + rewrite lookup_insert. split; [intros [= ->]; by left|]. intros [[= ->]|HU]; [done|]. destruct Hf. apply elem_of_list_fmap. by exists (nm m, U).
      + rewrite lookup_insert_ne by done. rewrite H. split; [by right|]. intros [[= -> ->]|?]; done.
    - simpl. intros x [->|(i&->&?)%Hn]%elem_of_cons; [exists m|exists i]; split; [done|lia|done|lia].
  Qed.
  Lemma have_drop M x T l n : have M ((x, T) :: l) n → M !! x = Some T ∧ have (delete x M) l n.
  Proof.
    intros (Hd&H&Hn). simpl in Hd. apply NoDup_cons in Hd as [Hx Hd]. split; [apply H; by left|]. split; [done|]. split.
    - intros y U. destruct (decide (y = x)) as [->|Hy].
      + rewrite lookup_delete. split; [done|]. intros HU. destruct Hx. apply elem_of_list_fmap. by exists (x, U).
      + rewrite lookup_delete_ne by done. rewrite H, elem_of_cons. split; [|by right]. intros [[= -> ->]|?]; done.
    - intros y Hy. apply Hn. simpl. by right.
  Qed.
  Lemma have_empty M n : have M [] n → M = ∅.
  Proof. intros (_&H&_). apply map_empty. intros x. destruct (M !! x) as [T|] eqn:E; [|done]. apply H in E. by apply not_elem_of_nil in E. Qed.
  Lemma have_vals M l n xs : have M l n → (∀ z, z ∈ xs → z ∈ l) → Forall2 (λ y T, M !! y = Some T) xs.*1 xs.*2.
  Proof.
    intros (_&H&_). induction xs as [|[x T] xs IH]; intros Hx; simpl; constructor; [apply H, Hx; by left|]. apply IH. intros z Hz. apply Hx. by right.
  Qed.

  Lemma wp_destroy_all xs : ∀ M l n p Q, have M (xs ++ l) n → (∀ M', have M' l n → wp p M' Q) → wp (destroy_all xs.*1 p) M Q.
  Proof.
    induction xs as [|[x T] xs IH]; intros M l n p Q Hh Hp; [by apply Hp|].
    apply have_drop in Hh as [HT Hh]. cbn. exists T. split; [done|]. by eapply IH.
  Qed.
  Lemma wp_copy_all xs : ∀ M l n k Q, have M l n → (∀ z, z ∈ xs → z ∈ l) →
    (∀ M' ys m, ys.*2 = xs.*2 → have M' (ys ++ l) m → wp (k ys.*1 m) M' Q) → wp (copy_all nm xs.*1 n k) M Q.
  Proof.
    induction xs as [|[x T] xs IH]; intros M l n k Q Hh Hx Hk; [by apply (Hk M [] n)|].
    cbn. split; [by exists n|]. split; [by eapply have_none|]. exists T. split; [destruct Hh as (_&H&_); apply H, Hx; by left|].
    eapply (IH _ ((nm n, T) :: l) (S n)); [by eapply have_new|intros z Hz; right; apply Hx; by right|].
    intros M' ys m Hys Hh'. apply (Hk M' ((nm n, T) :: ys) m); [change (T :: ys.*2 = T :: xs.*2); by rewrite Hys|]. eapply have_perm; [|exact Hh']. by rewrite <- Permutation_middle.
  Qed.
  (** the exception of the vector *)
  Definition may_throw : Prop := thr = true ∨ ∃ n, grows n = Fails.
  Lemma wp_push_back xs r T : ∀ M l n k f Q, have M (xs ++ (r, T) :: l) n →
    (∀ M' ys m, ys.*2 = xs.*2 ++ [T] → have M' (ys ++ (r, T) :: l) m → wp (k ys.*1 m) M' Q) → (may_throw → wp f M Q) →
    wp (push_back nm grows xs.*1 r n k f) M Q.
  Proof.
    intros M l n k f Q Hh Hk Hf. unfold push_back. assert (Hr : M !! r = Some T) by (destruct Hh as (_&H&_); apply H, elem_of_app; right; by left).
    destruct (grows n) eqn:E; [| |apply Hf; right; eauto]; cbn; (split; [by exists n|]; split; [by eapply have_none|]; exists T; split; [done|]).
    - pose proof (Hk (<[nm n:=T]> M) (xs ++ [(nm n, T)]) (S n)) as Hk'. rewrite !fmap_app in Hk'. apply Hk'; [done|].
      eapply have_perm; [|by eapply have_new]. rewrite <- app_assoc. apply Permutation_middle.
    - eapply (wp_copy_all xs _ ((nm n, T) :: xs ++ (r, T) :: l)); [by eapply have_new|intros z Hz; right; apply elem_of_app; by left|].
      intros M' ys m Hys Hh'. eapply (wp_destroy_all xs _ (ys ++ [(nm n, T)] ++ (r, T) :: l)).
      { eapply have_perm; [|exact Hh']. simpl. rewrite (app_assoc xs ys), (Permutation_app_comm xs ys), <- app_assoc. f_equiv.
        apply Permutation_middle. }
      intros M2 H2. pose proof (Hk M2 (ys ++ [(nm n, T)]) m) as Hk'. rewrite !fmap_app in Hk'. apply Hk'; [by rewrite Hys|]. by rewrite <- app_assoc.
  Qed.
End Wps.
