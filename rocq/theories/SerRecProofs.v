(** Round trip of nested keys. *)
From Verif Require Export SerRec.

Section Proofs.
  Context {D : Type} `{EqDecision D}.
  Notation vtree := (vtree D).
  Notation tok := (tok D).

  Section Ind.
    Context (Q : vtree → Prop) (HQ : ∀ d ks, Forall Q ks → Q (T d ks)).
    Fixpoint tree_ind' (t : vtree) : Q t :=
      match t with
      | T d ks => HQ d ks ((fix go ks : Forall Q ks :=
          match ks with [] => Forall_nil_2 _ | k :: ks => Forall_cons_2 _ _ _ (tree_ind' k) (go ks) end) ks)
      end.
  End Ind.

  Lemma tree_eqb_eq (a b : vtree) : tree_eqb a b = true ↔ a = b.
  Proof.
    revert b. induction a as [d ks IH] using tree_ind'. intros [e ls]. simpl.
    rewrite andb_true_iff, bool_decide_eq_true.
    assert (Hl : ∀ ls, (fix go (ks ls : list vtree) := match ks, ls with
                         | [], [] => true
                         | k :: ks, l :: ls => tree_eqb k l && go ks ls
                         | _, _ => false
                         end) ks ls = true ↔ ks = ls).
    { clear ls. induction IH as [|k ks Hk _ IHk]; intros [|l ls]; try done.
      rewrite andb_true_iff, Hk, IHk. naive_solver. }
    rewrite Hl. naive_solver.
  Qed.

  Fixpoint size (t : vtree) : nat := match t with T _ ks => S (sum_list_with size ks) end.

  Lemma position_some (tab : list vtree) t n : position tab t = Some n → tab !! n = Some t.
  Proof.
    revert n. induction tab as [|t' tab IH]; intros n; simpl; [done|]. destruct (tree_eqb t' t) eqn:E.
    - intros [= <-]. apply tree_eqb_eq in E as ->. done.
    - destruct (position tab t); simpl; [|done]. intros [= <-]. by apply IH.
  Qed.
  Lemma position_none (tab : list vtree) t : position tab t = None ↔ t ∉ tab.
  Proof.
    induction tab as [|t' tab IH]; simpl; [set_solver|]. rewrite not_elem_of_cons. destruct (tree_eqb t' t) eqn:E.
    - apply tree_eqb_eq in E as ->. naive_solver.
    - assert (t ≠ t') as Hne. { intros ->. rewrite (proj2 (tree_eqb_eq t' t')) in E; done. }
      destruct (position tab t); simpl; naive_solver.
  Qed.

  Lemma save_eq (tab : list vtree) d ks : save tab (T d ks) =
    match position tab (T d ks) with
    | Some n => ([Idx n], tab)
    | None => (Idx (length tab) :: Dat d (length ks) :: fst (saves tab ks), push (snd (saves tab ks)) (T d ks))
    end.
  Proof. simpl. destruct (position tab (T d ks)); [done|]. fold (saves tab ks). by destruct (saves tab ks). Qed.
  Lemma saves_cons (tab : list vtree) k ks : saves tab (k :: ks) =
    (fst (save tab k) ++ fst (saves (snd (save tab k)) ks), snd (saves (snd (save tab k)) ks)).
  Proof. simpl. destruct (save tab k) as [o1 t1]. simpl. by destruct (saves t1 ks). Qed.

  (** what saving adds to the table is no bigger than what is saved *)
  Lemma save_adds (t : vtree) : ∀ tab, ∃ new, snd (save tab t) = tab ++ new ∧ ∀ u, u ∈ new → size u ≤ size t.
  Proof.
    induction t as [d ks IH] using tree_ind'. intros tab. rewrite save_eq.
    destruct (position tab (T d ks)); simpl; [exists []; rewrite app_nil_r; split; [done|set_solver]|].
    assert (Hs : ∀ tab, ∃ new, snd (saves tab ks) = tab ++ new ∧ ∀ u, u ∈ new → size u ≤ sum_list_with size ks).
    { clear tab. induction IH as [|k ks Hk _ IHk]; intros tab.
      - exists []. rewrite app_nil_r. split; [done|set_solver].
      - rewrite saves_cons. simpl. destruct (Hk tab) as (n1&E1&H1). destruct (IHk (snd (save tab k))) as (n2&E2&H2).
        exists (n1 ++ n2). rewrite E2, E1, app_assoc. split; [done|]. intros u [Hu|Hu]%elem_of_app.
        + apply H1 in Hu. lia.
        + apply H2 in Hu. lia. }
    destruct (Hs tab) as (new&E&Hn). unfold push. destruct (position (snd (saves tab ks)) (T d ks)).
    - exists new. split; [done|]. intros u Hu%Hn. lia.
    - exists (new ++ [T d ks]). rewrite E, app_assoc. split; [done|].
      intros u [Hu|Hu]%elem_of_app; [apply Hn in Hu; lia|]. apply elem_of_list_singleton in Hu as ->. done.
  Qed.
  Lemma saves_adds (ks : list vtree) tab : ∃ new, snd (saves tab ks) = tab ++ new ∧ ∀ u, u ∈ new → size u ≤ sum_list_with size ks.
  Proof.
    revert tab. induction ks as [|k ks IH]; intros tab.
    - exists []. rewrite app_nil_r. split; [done|set_solver].
    - rewrite saves_cons. simpl. destruct (save_adds k tab) as (n1&E1&H1). destruct (IH (snd (save tab k))) as (n2&E2&H2).
      exists (n1 ++ n2). rewrite E2, E1, app_assoc. split; [done|]. intros u [Hu|Hu]%elem_of_app.
      + apply H1 in Hu. lia.
      + apply H2 in Hu. lia.
  Qed.
  Lemma push_new (tab : list vtree) d ks : position tab (T d ks) = None →
    push (snd (saves tab ks)) (T d ks) = snd (saves tab ks) ++ [T d ks].
  Proof.
    intros Hp. unfold push. destruct (position (snd (saves tab ks)) (T d ks)) eqn:E; [|done]. exfalso.
    apply position_some in E. destruct (saves_adds ks tab) as (new&E1&Hn). rewrite E1 in E.
    apply elem_of_list_lookup_2 in E. apply elem_of_app in E as [E|E%Hn].
    - by apply position_none in Hp.
    - simpl in E. lia.
  Qed.

  Lemma loads_gen_eq pick fuel m tab (i : list tok) :
    (fix go m (tab : list vtree) (i : list tok) :=
       match m with
       | 0 => Some ([], tab, i)
       | S m => match load_gen pick fuel tab i with
                | Some (k, tab1, i1) =>
                    match go m tab1 i1 with
                    | Some (ks, tab2, i2) => Some (k :: ks, tab2, i2)
                    | None => None
                    end
                | None => None
                end
       end) m tab i = loads_gen pick fuel m tab i.
  Proof. done. Qed.

  Lemma loads_gen_S pick fuel m tab (i : list tok) :
    loads_gen pick fuel (S m) tab i =
      match load_gen pick fuel tab i with
      | Some (k, tab1, i1) =>
          match loads_gen pick fuel m tab1 i1 with
          | Some (ks, tab2, i2) => Some (k :: ks, tab2, i2)
          | None => None
          end
      | None => None
      end.
  Proof. done. Qed.

  (** *** the repaired loader *)
  Lemma load_last_save (t : vtree) : ∃ f, ∀ fuel, f ≤ fuel → ∀ tab rest,
    load_last fuel tab (fst (save tab t) ++ rest) = Some (t, snd (save tab t), rest).
  Proof.
    induction t as [d ks IH] using tree_ind'.
    assert (Hks : ∃ f, ∀ fuel, f ≤ fuel → ∀ tab rest,
      loads_last fuel (length ks) tab (fst (saves tab ks) ++ rest) = Some (ks, snd (saves tab ks), rest)).
    { induction IH as [|k ks [f1 H1] _ [f2 H2]]; [by exists 0|]. exists (f1 + f2). intros fuel Hf tab rest.
      rewrite saves_cons. cbn [fst snd length]. rewrite <- app_assoc. unfold loads_last. rewrite loads_gen_S.
      pose proof (H1 fuel ltac:(lia) tab (fst (saves (snd (save tab k)) ks) ++ rest)) as E. unfold load_last in E. rewrite E.
      pose proof (H2 fuel ltac:(lia) (snd (save tab k)) rest) as E2. unfold loads_last in E2. by rewrite E2. }
    destruct Hks as [f Hf]. exists (S f). intros [|fuel] Hle tab rest; [lia|].
    rewrite save_eq. destruct (position tab (T d ks)) as [n|] eqn:Hp.
    - apply position_some in Hp. pose proof (lookup_lt_Some _ _ _ Hp).
      unfold load_last. simpl. rewrite !decide_False by lia. by rewrite Hp.
    - rewrite push_new by done. unfold load_last. simpl. rewrite decide_False, decide_True by lia.
      rewrite loads_gen_eq. pose proof (Hf fuel ltac:(lia) tab rest) as E. unfold loads_last in E. rewrite E.
      by rewrite list_lookup_middle.
  Qed.

  Lemma loads_last_saves (ts : list vtree) : ∃ f, ∀ fuel, f ≤ fuel → ∀ tab rest,
    loads_last fuel (length ts) tab (fst (saves tab ts) ++ rest) = Some (ts, snd (saves tab ts), rest).
  Proof.
    induction ts as [|k ks [f2 H2]]; [by exists 0|]. destruct (load_last_save k) as [f1 H1].
    exists (f1 + f2). intros fuel Hf tab rest.
    rewrite saves_cons. cbn [fst snd length]. rewrite <- app_assoc. unfold loads_last. rewrite loads_gen_S.
    pose proof (H1 fuel ltac:(lia) tab (fst (saves (snd (save tab k)) ks) ++ rest)) as E. unfold load_last in E. rewrite E.
    pose proof (H2 fuel ltac:(lia) (snd (save tab k)) rest) as E2. unfold loads_last in E2. by rewrite E2.
  Qed.

  (** *** the loader as it is: correct when every part of a value is saved
      before the value *)
  Fixpoint ordered (before : list vtree) (ts : list vtree) : Prop :=
    match ts with
    | [] => True
    | T d ks :: ts => (∀ k, k ∈ ks → k ∈ before) ∧ ordered (T d ks :: before) ts
    end.

  Lemma saves_known (ks : list vtree) : ∀ tab, (∀ k, k ∈ ks → k ∈ tab) → snd (saves tab ks) = tab.
  Proof.
    induction ks as [|k ks IH]; intros tab Hk; [done|]. rewrite saves_cons. simpl.
    assert (E : snd (save tab k) = tab).
    { destruct k as [d ls]. rewrite save_eq. destruct (position tab (T d ls)) eqn:E; [done|].
      apply position_none in E. destruct E. apply Hk. by left. }
    rewrite E. apply IH. intros k' ?. apply Hk. by right.
  Qed.

  Lemma load_known fuel (ks : list vtree) : ∀ tab rest, 1 ≤ fuel → (∀ k, k ∈ ks → k ∈ tab) →
    loads fuel (length ks) tab (fst (saves tab ks) ++ rest) = Some (ks, tab, rest).
  Proof.
    induction ks as [|k ks IH]; intros tab rest Hf Hk; [done|]. rewrite saves_cons. cbn [fst snd length]. rewrite <- app_assoc. unfold loads. rewrite loads_gen_S.
    destruct (position tab k) as [n|] eqn:E; [|apply position_none in E; destruct E; apply Hk; by left].
    assert (save tab k = ([Idx n], tab)) as ->. { destruct k as [d ls]. rewrite save_eq. by rewrite E. }
    apply position_some in E. pose proof (lookup_lt_Some _ _ _ E). destruct fuel as [|fuel]; [lia|]. cbn [load_gen fst snd app].
    rewrite !decide_False by lia. rewrite E.
    pose proof (IH tab rest ltac:(lia) (λ k' H, Hk k' ltac:(by right))) as E2. unfold loads in E2. by rewrite E2.
  Qed.

  Lemma loads_saves (ts : list vtree) : ∀ fuel tab rest before, 2 ≤ fuel → (∀ k, k ∈ before → k ∈ tab) → ordered before ts →
    loads fuel (length ts) tab (fst (saves tab ts) ++ rest) = Some (ts, snd (saves tab ts), rest).
  Proof.
    induction ts as [|[d ks] ts IH]; intros fuel tab rest before Hf Hb Ho; [done|]. destruct Ho as [Hks Ho].
    rewrite saves_cons. simpl length.
    assert (E : load fuel tab (fst (save tab (T d ks)) ++ (fst (saves (snd (save tab (T d ks))) ts) ++ rest)) =
                Some (T d ks, snd (save tab (T d ks)), fst (saves (snd (save tab (T d ks))) ts) ++ rest)
                ∧ T d ks ∈ snd (save tab (T d ks)) ∧ ∃ new, snd (save tab (T d ks)) = tab ++ new).
    { destruct (save_adds (T d ks) tab) as (new&Enew&_). split_and!; [| |by eauto].
      - rewrite save_eq. destruct fuel as [|fuel]; [lia|]. destruct (position tab (T d ks)) as [n|] eqn:Hp.
        + cbn [fst snd app]. unfold load. cbn [load_gen]. apply position_some in Hp. pose proof (lookup_lt_Some _ _ _ Hp).
          rewrite !decide_False by lia. by rewrite Hp.
        + rewrite push_new by done. rewrite saves_known by auto. cbn [fst snd app]. unfold load. cbn [load_gen].
          rewrite decide_False, decide_True by lia. rewrite loads_gen_eq.
          pose proof (load_known fuel ks tab (fst (saves (tab ++ [T d ks]) ts) ++ rest) ltac:(lia) ltac:(auto)) as E. unfold loads in E. rewrite E.
          by rewrite list_lookup_middle.
      - rewrite save_eq. destruct (position tab (T d ks)) as [n|] eqn:Hp; simpl.
        + apply position_some in Hp. by eapply elem_of_list_lookup_2.
        + rewrite push_new by done. apply elem_of_app. right. by left. }
    destruct E as (E&Hin&new&Enew).
    cbn [fst snd length]. rewrite <- app_assoc. unfold loads. rewrite loads_gen_S. unfold load in E. rewrite E.
    pose proof (IH fuel (snd (save tab (T d ks))) rest (T d ks :: before) Hf) as E2. unfold loads in E2.
    rewrite E2; [done| |done]. intros k [->|Hk]%elem_of_cons; [done|]. rewrite Enew. apply elem_of_app. left. by apply Hb.
  Qed.
End Proofs.
