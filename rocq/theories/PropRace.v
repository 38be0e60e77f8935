(** C41: concurrent initialization. *)
From Verif Require Import StaticsRace.

Definition past_ptrs (p : pc) : bool := match p with P_check | P_flag | P_ret | P_mutex | P_factory => true | _ => false end.
Record Inv (s : state) : Prop := {
  i_flag : flag s = true → fptr s = true ∧ mptr s = true;
  i_ptr : fptr s = true ∨ mptr s = true → hold s = H_alive;
  i_built : built s = match hold s with H_alive => 1 | _ => 0 end;
  i_busy t : hold s = H_busy t ↔ ∃ th, threads s !! t = Some th ∧ at_ th = P_build;
  i_pos t th : threads s !! t = Some th → match at_ th with
    | P_fptr => hold s = H_alive | P_mptr => fptr s = true
    | P_check | P_flag => fptr s = true ∧ mptr s = true
    | P_ret | P_mutex | P_factory => flag s = true
    | _ => True end;
}.
Lemma start_thread d ns t th : threads (start d ns) !! t = Some th → at_ th = P_test.
Proof. simpl. intros H%elem_of_list_to_map_2. apply elem_of_lookup_imap in H as (i&b&?&_). by simplify_eq. Qed.
Lemma start_inv d ns : Inv (start d ns).
Proof.
  split.
  - by destruct d.
  - destruct d; [done|]. by intros [[=]|[=]].
  - by destruct d.
  - intros t. split; [by destruct d|]. intros (th&Ht&Hp). apply start_thread in Ht. congruence.
  - intros t th Ht. by rewrite (start_thread _ _ _ _ Ht).
Qed.

Lemma step_inv s t : Inv s → match step s t with Next s' => Inv s' | Stuck => True | Undef => False end.
Proof.
  intros [H1 H2 H3 H4 H5]. unfold step. destruct (threads s !! t) as [[p n]|] eqn:Et; [|done]. simpl.
  pose proof (H5 t _ Et) as Hp. simpl in Hp.
  (* moves from a position other than P_build to another such *)
  assert (Hgo : ∀ p' n' f m fl, p ≠ P_build → p' ≠ P_build → (flag s = true → fl = true) → (fptr s = true → f = true) → (mptr s = true → m = true) →
     (fl = true → f = true ∧ m = true) → (f = true ∨ m = true → hold s = H_alive) →
     match p' with P_fptr => hold s = H_alive | P_mptr => f = true | P_check | P_flag => f = true ∧ m = true | P_ret | P_mutex | P_factory => fl = true | _ => True end →
     Inv (State fl f m (hold s) (built s) (<[t:=Thread p' n']> (threads s)))).
  { intros p' n' f m fl Hnb Hnb' E1 E2 E3 E4 E5 E6. split; simpl; try done.
    - intros u. rewrite H4. destruct (decide (u = t)) as [->|Hne].
      + rewrite lookup_insert, Et. split; intros (th&[= <-]&Hth); simpl in Hth; congruence.
      + by rewrite lookup_insert_ne.
    - intros u th Hu. destruct (decide (u = t)) as [->|Hne]; [rewrite lookup_insert in Hu; by simplify_eq|].
      rewrite lookup_insert_ne in Hu by done. specialize (H5 u th Hu). destruct (at_ th); naive_solver. }
  destruct p.
  - unfold goto. apply Hgo; try done; destruct (flag s) eqn:Ef; try done; auto.
  - destruct (hold s) as [|u|] eqn:Eh; [|done|].
    + split; simpl; try done.
      * intros Hq. by specialize (H2 Hq).
      * intros u. destruct (decide (u = t)) as [->|Hne].
        -- rewrite lookup_insert. split; [by eexists|done].
        -- rewrite lookup_insert_ne by done. rewrite <- H4. split; [congruence|done].
      * intros u th Hu. destruct (decide (u = t)) as [->|Hne]; [rewrite lookup_insert in Hu; by simplify_eq|].
        rewrite lookup_insert_ne in Hu by done. specialize (H5 u th Hu). destruct (at_ th); try done. 
    + unfold goto. rewrite Eh. apply Hgo; try done.
  - assert (hold s = H_busy t) as Eh by (apply H4; by eexists). split; simpl; try done.
    + rewrite H3, Eh. done.
    + intros u. split; [done|]. intros (th&Hu&Hth). exfalso. destruct (decide (u = t)) as [->|Hne]; [rewrite lookup_insert in Hu; by simplify_eq|].
      rewrite lookup_insert_ne in Hu by done. assert (hold s = H_busy u) by (apply H4; by eexists). congruence.
    + intros u th Hu. destruct (decide (u = t)) as [->|Hne]; [rewrite lookup_insert in Hu; by simplify_eq|].
      rewrite lookup_insert_ne in Hu by done. specialize (H5 u th Hu). destruct (at_ th); try done.
  - apply Hgo; try done. intros Hf. by destruct (H1 Hf).
  - assert (hold s = H_alive) as Eh by auto. apply Hgo; try done.
  - apply Hgo; try done.
  - destruct Hp. apply Hgo; try done; auto.
  - apply Hgo; try done; auto.
  - destruct (H1 Hp) as [Hf Hm]. rewrite Hm. unfold goto. rewrite Hm. apply Hgo; try done; auto.
  - destruct (H1 Hp) as [Hf Hm]. rewrite Hf. destruct n; [done|]. unfold goto; simpl. rewrite Hf. apply Hgo; try done; auto.
Qed.
Lemma run_inv ls : ∀ s, Inv s → match run s ls with Next s' => Inv s' | _ => False end.
Proof. induction ls as [|l ls IH]; intros s HI; simpl; [done|]. pose proof (step_inv s l HI) as H. destruct (step s l); [by apply IH|by apply IH|done]. Qed.

(** the claim is false: two threads initializing for the first time race, for
    instance on static_initializer *)
Theorem C41_race_refuted : ∃ ls s, run (start false [0; 0]) ls = Next s ∧ race s.
Proof.
  exists [0; 0; 0; 0; 0; 0], (match run (start false [0; 0]) [0; 0; 0; 0; 0; 0] with Next s => s | _ => start false [] end).
  split; [by vm_compute|]. exists 0, 1, (Thread P_flag 0), (Thread P_test 0), Flag, true, false. vm_compute. split_and!; try reflexivity. done.
Qed.
(** ... and on the pointers, both writing *)
Theorem C41_pointer_race_refuted : ∃ ls s t u, run (start false [0; 0]) ls = Next s ∧ t ≠ u ∧
  at_ <$> (threads s !! t) = Some P_fptr ∧ at_ <$> (threads s !! u) = Some P_fptr ∧ race s.
Proof.
  exists [0; 1; 0; 0; 1], (match run (start false [0; 0]) [0; 1; 0; 0; 1] with Next s => s | _ => start false [] end), 0, 1.
  split_and!; [by vm_compute|done|by vm_compute|by vm_compute|].
  exists 0, 1, (Thread P_fptr 0), (Thread P_fptr 0), FPtr, true, true. vm_compute. split_and!; try reflexivity. done.
Qed.

(** it holds if init() has completed before the threads start: any number of
    threads, operations and any schedule *)
Theorem C41_after_init ns ls : ∃ s, run (start true ns) ls = Next s ∧ ¬ race s ∧ flag s = true ∧ fptr s = true ∧ mptr s = true ∧ built s = 1.
Proof.
  assert (∀ ls s, Inv s → flag s = true → (∀ t th, threads s !! t = Some th → at_ th = P_test ∨ at_ th = P_mutex ∨ at_ th = P_factory) →
    ∃ s', run s ls = Next s' ∧ Inv s' ∧ flag s' = true ∧ ∀ t th, threads s' !! t = Some th → at_ th = P_test ∨ at_ th = P_mutex ∨ at_ th = P_factory) as H.
  { clear. intros ls. induction ls as [|t ls IH]; intros s HI Hf Hp; simpl; [by exists s|]. pose proof (step_inv s t HI) as Hok.
    destruct (step s t) as [s1| |] eqn:Es; [|by apply IH|done]. destruct (i_flag _ HI Hf) as [Hf1 Hm1].
    unfold step in Es. destruct (threads s !! t) as [[p n]|] eqn:Et; [|done]. specialize (Hp t _ Et) as Hpt. simpl in *. rewrite Hf, Hf1, Hm1 in Es.
    assert (∃ p' n', s1 = goto t p' (Thread p n') s ∧ (p' = P_test ∨ p' = P_mutex ∨ p' = P_factory)) as (p'&n'&->&Hp').
    { destruct Hpt as [->|[->| ->]]; simpl in Es; repeat case_match; simplify_eq; eexists _, _; (split; [reflexivity|]); auto. }
    apply IH; [done|done|]. intros u th Hu. simpl in Hu. destruct (decide (u = t)) as [->|]; [rewrite lookup_insert in Hu; by simplify_eq|].
    rewrite lookup_insert_ne in Hu by done. by eapply Hp. }
  destruct (H ls (start true ns)) as (s'&Hr&HI&Hf&Hp); [apply start_inv|done|intros t th Ht; left; by eapply start_thread|].
  exists s'. destruct (i_flag _ HI Hf) as [H1 H2]. split_and!; try done.
  - intros (t&u&th&uh&x&w&w'&_&Ht&Hu&E1&E2&Hw). destruct (Hp t th Ht) as [E|[E|E]], (Hp u uh Hu) as [E'|[E'|E']]; rewrite E in E1; rewrite E' in E2; simpl in *; simplify_eq.
  - rewrite (i_built _ HI), (i_ptr _ HI); auto.
Qed.

(** apart from being undefined, the race is benign: if accesses were
    sequentially consistent, in all schedules one holder would be constructed
    and no operation meet a null pointer *)
Theorem C41_single_holder d ns ls : ∃ s, run (start d ns) ls = Next s ∧ built s ≤ 1 ∧
  ∀ t th, threads s !! t = Some th → at_ th = P_mutex ∨ at_ th = P_factory → fptr s = true ∧ mptr s = true ∧ hold s = H_alive ∧ built s = 1.
Proof.
  pose proof (run_inv ls (start d ns) (start_inv d ns)) as HI. destruct (run (start d ns) ls) as [s| |]; [|done|done]. exists s. split_and!; [done| |].
  - rewrite (i_built _ HI). destruct (hold s); lia.
  - intros t th Ht Hp. pose proof (i_pos _ HI t th Ht) as H. assert (flag s = true) as Hf by (destruct Hp as [E|E]; by rewrite E in H).
    destruct (i_flag _ HI Hf). pose proof (i_ptr _ HI). rewrite (i_built _ HI). assert (hold s = H_alive) as -> by auto. done.
Qed.

Example ex_waits : match run (start false [1; 2]) [0; 1; 0] with
  | Next s => hold s = H_busy 0 ∧ step s 1 = Stuck ∧ built s = 0 ∧ at_ <$> (threads s !! 1) = Some P_get | _ => False end.
Proof. vm_compute. split_and!; reflexivity. Qed.
Example ex_both : match run (start false [1; 2]) (replicate 7 0 ++ replicate 12 1 ++ replicate 9 0) with
  | Next s => built s = 1 ∧ flag s = true ∧ threads s !! 0 = Some (Thread P_factory 0) ∧ threads s !! 1 = Some (Thread P_factory 0) | _ => False end.
Proof. vm_compute. split_and!; reflexivity. Qed.

Print Assumptions C41_race_refuted.
Print Assumptions C41_pointer_race_refuted.
Print Assumptions C41_after_init.
Print Assumptions C41_single_holder.
