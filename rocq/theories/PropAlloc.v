(** C80: the counting allocator of example/perf.cpp counts the memory in use, and
    the report splits it into that of the vectors and the rest; but allocate does not
    have the room for as many elements as max_size permits. *)
From Coq Require Import NArith.
From Verif Require Import Prelude.
From Verif Require Import Alloc.
Open Scope N_scope.

(** what has been allocated and not given back: the sizes of the elements and their
    numbers.  Memory is given back once, as it was allocated *)
Inductive in_use : list call → gmap N (N * N) → Prop :=
| Use_nil : in_use [] ∅
| Use_fail h G sz n : in_use h G → in_use (h ++ [Allocate sz n None]) G
| Use_new h G sz n p : in_use h G → G !! p = None → in_use (h ++ [Allocate sz n (Some p)]) (<[p := (sz, n)]> G)
| Use_free h G sz n p : in_use h G → G !! p = Some (sz, n) → in_use (h ++ [Deallocate sz p n]) (delete p G).
Definition sum (l : list N) : N := foldr N.add 0 l.
Definition total (G : gmap N (N * N)) : N := sum ((λ e, e.2.2 * e.2.1) <$> map_to_list G).

Implicit Types (G : gmap N (N * N)) (h : list call) (s : mem_state) (sz n p q : N).
Lemma sum_perm l l' : l ≡ₚ l' → sum l = sum l'.
Proof. induction 1 as [| | |? ? ? _ -> _ ->]; simpl; lia. Qed.
Lemma total_new G p e : G !! p = None → total (<[p:=e]> G) = e.2 * e.1 + total G.
Proof. intros Hp. unfold total. rewrite (sum_perm _ ((λ e : N * (N * N), e.2.2 * e.2.1) <$> (p, e) :: map_to_list G)); [done|]. by rewrite map_to_list_insert. Qed.
Lemma total_free G p e : G !! p = Some e → total G = e.2 * e.1 + total (delete p G).
Proof. intros Hp. rewrite <- (total_new (delete p G) p e) by apply lookup_delete. by rewrite insert_delete. Qed.
Lemma wrap_lt a : wrap a < 2 ^ 64.
Proof. by apply N.mod_lt. Qed.
Lemma wrap_add a b : wrap (wrap a + wrap b) = wrap (a + b).
Proof. unfold Perf.wrap. by rewrite <- N.add_mod by done. Qed.
Lemma wrap_id a : a < 2 ^ 64 → wrap a = a.
Proof. apply N.mod_small. Qed.
Lemma minus_add a b : minus (wrap (b + a)) (wrap b) = wrap a.
Proof.
  unfold minus. pose proof (wrap_lt b) as Hb. rewrite <- (wrap_add b a). set (x := wrap b) in *. set (y := wrap a).
  assert (Hy : y < 2 ^ 64) by apply wrap_lt. unfold Perf.wrap at 1 2. rewrite N.add_mod_idemp_l by done.
  replace (x + y + (2 ^ 64 - x)) with (y + 1 * 2 ^ 64) by lia. rewrite N.mod_add by done. by apply N.mod_small.
Qed.
Lemma run_app s h h' : run s (h ++ h') = match run s h with Next s => run s h' | r => r end.
Proof. revert s. induction h as [|c h IH]; intros s; [done|]. simpl. destruct (step s c); [apply IH|done|done]. Qed.

Lemma run_in_use h G : in_use h G → ∃ s, run init h = Next s ∧ mem s = wrap (total G) ∧ ∀ p, blocks s !! p = (λ e, bytes e.1 e.2) <$> G !! p.
Proof.
  induction 1 as [|h G sz n _ (s&E&Hm&Hb)|h G sz n p _ (s&E&Hm&Hb) Hp|h G sz n p _ (s&E&Hm&Hb) Hp].
  - exists init. split_and!; [done|done|]. intros p. by rewrite lookup_empty.
  - exists s. rewrite run_app, E. done.
  - eexists. rewrite run_app, E. simpl. rewrite Hb, Hp. simpl. split; [done|]. simpl. split.
    + rewrite Hm, total_new by done. unfold bytes. rewrite wrap_add. simpl. f_equal. lia.
    + intros q. destruct (decide (p = q)) as [<-|Hq]; [by rewrite !lookup_insert|]. by rewrite !lookup_insert_ne.
  - eexists. rewrite run_app, E. simpl. rewrite Hb, Hp. simpl. split; [done|]. simpl. split.
    + rewrite Hm, (total_free _ _ _ Hp). unfold bytes. simpl. apply minus_add.
    + intros q. destruct (decide (p = q)) as [<-|Hq]; [by rewrite !lookup_delete|]. by rewrite !lookup_delete_ne.
Qed.
(** whatever is allocated and given back, in any order and with exceptions: the
    bytes in use are counted, modulo 2^64, and there are no others *)
Theorem C80_counts h G : in_use h G → ∃ s, run init h = Next s ∧ mem s = wrap (total G) ∧ dom (blocks s) = dom G.
Proof.
  intros H. destruct (run_in_use h G H) as (s&E&Hm&Hb). exists s. split_and!; [done|done|]. apply set_eq. intros p. rewrite !elem_of_dom, Hb. by rewrite fmap_is_Some.
Qed.
Theorem C80_nothing h s : in_use h ∅ → run init h = Next s → mem s = 0 ∧ blocks s = ∅.
Proof.
  intros H E. destruct (run_in_use h ∅ H) as (s'&E'&Hm&Hb). assert (s' = s) as -> by congruence. split; [done|]. apply map_empty. intros p. by rewrite Hb, lookup_empty.
Qed.
(** the array has the room for the elements unless the product overflows *)
Theorem C80_room h G s p sz n : in_use h G → run init h = Next s → G !! p = Some (sz, n) → n * sz < 2 ^ 64 → blocks s !! p = Some (n * sz).
Proof.
  intros H E Hp Hn. destruct (run_in_use h G H) as (s'&E'&_&Hb). assert (s' = s) as -> by congruence. rewrite Hb, Hp. simpl. unfold bytes. by rewrite wrap_id.
Qed.
(** E/ 80 (example/perf.cpp) is wrong for elements of two bytes or more *)
Theorem C80_room_refuted sz : 2 ≤ sz < 2 ^ 64 → ∃ n p s b, n ≤ max_size ∧ in_use [Allocate sz n (Some p)] {[ p := (sz, n) ]} ∧
  run init [Allocate sz n (Some p)] = Next s ∧ blocks s !! p = Some b ∧ b < n * sz.
Proof.
  intros Hsz. exists max_size, 0, (Mem (wrap (0 + bytes sz max_size)) {[ 0 := bytes sz max_size ]}), (bytes sz max_size). split; [done|]. split.
  { apply (Use_new [] ∅); [constructor|apply lookup_empty]. }
  split; [done|]. split; [apply lookup_singleton|]. pose proof (wrap_lt (max_size * sz)) as H. unfold bytes. unfold max_size in *. nia.
Qed.
(** the report: the bytes in use, those of the two vectors and the others *)
Theorem C80_report h G s p q sz cap cap2 : in_use h G → run init h = Next s → p ≠ q → G !! p = Some (sz, cap) → G !! q = Some (sz, cap2) →
  0 < sz → total G < 2 ^ 64 → report s sz cap cap2 = (total G, cap * sz + cap2 * sz, total (delete q (delete p G))).
Proof.
  intros H E Hpq Hp Hq Hsz Ht. destruct (run_in_use h G H) as (s'&E'&Hm&_). assert (s' = s) as -> by congruence.
  pose proof (total_free G p _ Hp) as H1. pose proof (total_free (delete p G) q (sz, cap2)) as H2. rewrite lookup_delete_ne in H2 by done. specialize (H2 Hq). simpl in H1, H2.
  set (r := total (delete q (delete p G))) in *. unfold report, bytes. cbv zeta.
  assert (Hc : cap + cap2 < 2 ^ 64) by nia. rewrite (wrap_id (cap + cap2)) by done.
  replace (total G) with ((cap + cap2) * sz + r) in * by lia. rewrite Hm, minus_add, !wrap_id by lia. f_equal. f_equal. lia.
Qed.
(** memory given back with another number of elements is not noticed and the count
    is wrong from then on *)
Theorem C80_wrong h G s p sz n m : in_use h G → run init h = Next s → G !! p = Some (sz, n) → m * sz < n * sz → total G < 2 ^ 64 →
  ∃ s', run init (h ++ [Deallocate sz p m]) = Next s' ∧ total (delete p G) < mem s'.
Proof.
  intros H E Hp Hm Ht. destruct (run_in_use h G H) as (s'&E'&Hm'&Hb). assert (s' = s) as -> by congruence.
  eexists. rewrite run_app, E. simpl. rewrite Hb, Hp. simpl. split; [done|]. simpl. pose proof (total_free G p _ Hp) as H1. simpl in H1.
  rewrite Hm'. replace (total G) with (m * sz + (n * sz - m * sz + total (delete p G))) in * by lia. unfold bytes. rewrite minus_add, wrap_id by lia. lia.
Qed.
(** what is not in use is not given back: twice, or without having been allocated *)
Theorem C80_twice h G p sz n : in_use h G → G !! p = None → run init (h ++ [Deallocate sz p n]) = Undef.
Proof. intros H Hp. destruct (run_in_use h G H) as (s&E&_&Hb). rewrite run_app, E. simpl. by rewrite Hb, Hp. Qed.

(** ** Examples *)
Definition calls : list call := [Allocate 8 4 (Some 100); Allocate 32 1 (Some 200); Allocate 8 40 None; Allocate 8 44 (Some 300); Allocate 1 20 (Some 400); Deallocate 32 200 1].
Example C80_calls : ∃ G, in_use calls G ∧ total G = 404 ∧ G !! 100 = Some (8, 4) ∧ G !! 300 = Some (8, 44).
Proof.
  eexists. split.
  - change calls with (((((([] ++ [Allocate 8 4 (Some 100)]) ++ [Allocate 32 1 (Some 200)]) ++ [Allocate 8 40 None]) ++ [Allocate 8 44 (Some 300)]) ++ [Allocate 1 20 (Some 400)]) ++ [Deallocate 32 200 1]).
    apply Use_free with (sz := 32) (n := 1); [repeat first [apply Use_fail|apply Use_new|apply Use_nil]|]; vm_compute; reflexivity.
  - vm_compute. split_and!; reflexivity.
Qed.
Example C80_again : run init (calls ++ [Deallocate 32 200 1]) = Undef ∧ run init (calls ++ [Deallocate 1 400 20]) ≠ Undef.
Proof. vm_compute. done. Qed.
Example C80_shown : match run init calls with Next s => Some (report s 8 4 44) | _ => None end = Some (404, 384, 20).
Proof. vm_compute. reflexivity. Qed.

Print Assumptions C80_counts.
Print Assumptions C80_nothing.
Print Assumptions C80_room.
Print Assumptions C80_room_refuted.
Print Assumptions C80_report.
Print Assumptions C80_wrong.
Print Assumptions C80_twice.
