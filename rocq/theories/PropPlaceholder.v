(** C54: placeholder expressions in specifiers. *)
From Verif Require Import PlaceholderProofs.

Section lemmas.
  Context (ign : bool) (utype : ty → option ty).
  Lemma replaced_not_mentions args t u :
    (∀ a, a ∈ args → ¬ mentions ign a) → replaced ign args t u → ¬ mentions ign u.
  Proof.
    intros Ha. revert u. induction t as [n|f v ts IH] using ty_nested_ind; intros u; inversion 1 as [? ? Hn|? Hn|? ? ? us Hm Hl]; subst.
    - by eapply Ha, elem_of_list_lookup_2.
    - done.
    - done.
    - inversion 1 as [|? ? ? u Hv Hin Hmu]; subst. apply elem_of_list_lookup in Hin as [i Hi].
      destruct (Forall2_lookup_r _ _ _ _ _ Hl Hi) as (t & Hti & Hr).
      rewrite Forall_forall in IH. eapply IH; [by eapply elem_of_list_lookup_2|done|done].
  Qed.
  Lemma not_mentions_tpl f v ts : (∀ t, t ∈ ts → ¬ mentions ign t) → ¬ mentions ign (Tpl f v ts).
  Proof. intros H. inversion 1; subst. by eapply H. Qed.
  Lemma all_some3 {X} (a b c : option X) us : all_some [a; b; c] = Some us ↔ ∃ x y z, a = Some x ∧ b = Some y ∧ c = Some z ∧ us = [x; y; z].
  Proof. simpl. destruct a, b, c; split; try done; try (intros [= <-]; eauto 10); intros (?&?&?&?&?&?&?); simplify_eq; done. Qed.
  Lemma all_some2 {X} (a b : option X) us : all_some [a; b] = Some us ↔ ∃ x y, a = Some x ∧ b = Some y ∧ us = [x; y].
  Proof. simpl. destruct a, b; split; try done; try (intros [= <-]; eauto 10); intros (?&?&?&?&?); simplify_eq; done. Qed.
  Lemma or_default_spec d t : (t = na → or_default d t = d) ∧ (t ≠ na → or_default d t = t).
  Proof.
    unfold or_default. destruct (ty_eqb t na) eqn:E; [apply ty_eqb_spec in E; done|].
    split; [|done]. intros ->. by rewrite ty_eqb_refl in E.
  Qed.
End lemmas.

Section C54.
  Context (ign : bool) (utype : ty → option ty) (iter vtype : ty → option ty) (uapply : ty → list ty → option ty).
  Notation apply := (apply ign utype uapply).
  Notation ph := (is_placeholder_expression ign utype uapply).
  Notation replaced := (replaced ign).
  Notation mentions := (mentions ign).

  (** is_placeholder_expression tells types with placeholders from those
      without (MPL has the placeholders _1 to _5). *)
  Theorem C54_detection t : within 5 t → ∃ b, ph t = Some b ∧ (b = true ↔ mentions t).
  Proof. apply detects. Qed.

  (** The specifiers hashed_factory, set_factory, concurrent_factory make their
      factory class of Entry and Key, with _1 and _2 in their arguments
      replaced by these and nothing else changed. *)
  Theorem C54_hashed h p a e k F : plain utype →
    apply (hashed_factory ign h p a) [e; k] = Some F ↔
    ∃ h' p' a', replaced [e; k] h h' ∧ replaced [e; k] p p' ∧ replaced [e; k] a a' ∧ F = Tpl HashedFactoryClass false [e; k; h'; p'; a'].
  Proof.
    intros Hp. unfold Placeholder.apply, hashed_factory. rewrite guarded_not_lambda by done.
    assert (member_apply ign utype uapply (guarded ign HashedFactory [h; p; a]) [e; k]
            = eval ign utype [e; k] (Tpl HashedFactoryClass false [Ph 0; Ph 1; h; p; a])) as -> by (by destruct ign).
    rewrite (class_eval ign utype HashedFactoryClass [e; k] [h; p; a] ltac:(simpl; lia) I e k eq_refl).
    destruct (all_some _) as [us|] eqn:E.
    - apply all_some3 in E as (x & y & z & E1 & E2 & E3 & ->). rewrite !eval_replaced in * by done. split.
      + intros [= <-]. eauto 10.
      + intros (h' & p' & a' & H1 & H2 & H3 & ->). rewrite <- eval_replaced in * by done. by simplify_eq.
    - split; [done|]. intros (h' & p' & a' & H1 & H2 & H3 & ->). rewrite <- (eval_replaced ign utype) in * by done.
      simpl in E. rewrite H1, H2, H3 in E. done.
  Qed.
  Theorem C54_concurrent h p a e k F : plain utype →
    apply (concurrent_factory ign h p a) [e; k] = Some F ↔
    ∃ h' p' a', replaced [e; k] h h' ∧ replaced [e; k] p p' ∧ replaced [e; k] a a' ∧ F = Tpl ConcurrentFactoryClass false [e; k; h'; p'; a'].
  Proof.
    intros Hp. unfold Placeholder.apply, concurrent_factory. rewrite guarded_not_lambda by done.
    assert (member_apply ign utype uapply (guarded ign ConcurrentFactory [h; p; a]) [e; k]
            = eval ign utype [e; k] (Tpl ConcurrentFactoryClass false [Ph 0; Ph 1; h; p; a])) as -> by (by destruct ign).
    rewrite (class_eval ign utype ConcurrentFactoryClass [e; k] [h; p; a] ltac:(simpl; lia) I e k eq_refl).
    destruct (all_some _) as [us|] eqn:E.
    - apply all_some3 in E as (x & y & z & E1 & E2 & E3 & ->). rewrite !eval_replaced in * by done. split.
      + intros [= <-]. eauto 10.
      + intros (h' & p' & a' & H1 & H2 & H3 & ->). rewrite <- eval_replaced in * by done. by simplify_eq.
    - split; [done|]. intros (h' & p' & a' & H1 & H2 & H3 & ->). rewrite <- (eval_replaced ign utype) in * by done.
      simpl in E. rewrite H1, H2, H3 in E. done.
  Qed.
  Theorem C54_set c a e k F : plain utype →
    apply (set_factory ign c a) [e; k] = Some F ↔
    ∃ c' a', replaced [e; k] c c' ∧ replaced [e; k] a a' ∧ F = Tpl SetFactoryClass false [e; k; c'; a'].
  Proof.
    intros Hp. unfold Placeholder.apply, set_factory. rewrite guarded_not_lambda by done.
    assert (member_apply ign utype uapply (guarded ign SetFactory [c; a]) [e; k]
            = eval ign utype [e; k] (Tpl SetFactoryClass false [Ph 0; Ph 1; c; a])) as -> by (by destruct ign).
    rewrite (class_eval ign utype SetFactoryClass [e; k] [c; a] ltac:(simpl; lia) I e k eq_refl).
    destruct (all_some _) as [us|] eqn:E.
    - apply all_some2 in E as (x & y & E1 & E2 & ->). rewrite !eval_replaced in * by done. split.
      + intros [= <-]. eauto 10.
      + intros (c' & a' & H1 & H2 & ->). rewrite <- eval_replaced in * by done. by simplify_eq.
    - split; [done|]. intros (c' & a' & H1 & H2 & ->). rewrite <- (eval_replaced ign utype) in * by done.
      simpl in E. rewrite H1, H2 in E. done.
  Qed.

  (** assoc_container_factory with a placeholder expression for the container;
      with a metafunction class, what its apply says *)
  Theorem C54_assoc c e k F : plain utype →
    apply (assoc_factory ign c) [e; k] = Some F ↔
    ∃ c', F = Tpl AssocFactoryClass false [c'] ∧
      ((mentions c ∧ replaced [e; k] c c') ∨ (¬ mentions c ∧ uapply c [e; k] = Some c')).
  Proof.
    intros Hp. unfold Placeholder.apply, assoc_factory. rewrite guarded_not_lambda by done.
    assert (member_apply ign utype uapply (guarded ign AssocFactory [c]) [e; k]
            = match apply0 ign utype uapply c [e; k] with Some c => Some (Tpl AssocFactoryClass false [c]) | None => None end) as -> by (by destruct ign).
    unfold apply0. destruct (is_lambda ign c) eqn:El.
    - apply lambda_spec in El. destruct (eval ign utype [e; k] c) as [c'|] eqn:E.
      + apply eval_replaced in E; [|done]. split; [intros [= <-]; eauto 10|].
        intros (c2 & -> & [[_ Hr]|[? _]]); [|done]. rewrite <- (eval_replaced ign utype) in * by done. by simplify_eq.
      + split; [done|]. intros (c2 & -> & [[_ Hr]|[? _]]); [|done]. rewrite <- (eval_replaced ign utype) in * by done. by simplify_eq.
    - apply lambda_false in El. destruct (uapply c [e; k]) as [c'|] eqn:E.
      + split; [intros [= <-]; eauto 10|]. intros (c2 & -> & [[? _]|[_ ?]]); [done|]. by simplify_eq.
      + split; [done|]. intros (c2 & -> & [[? _]|[_ ?]]); [done|]. by simplify_eq.
  Qed.

  (** Giving the class itself as a placeholder expression is the same as giving
      the specifier. *)
  Theorem C54_classes h p a c d e k x : mentions d →
    apply (Tpl HashedFactoryClass false [Ph 0; Ph 1; h; p; a]) [e; k] = apply (hashed_factory ign h p a) [e; k] ∧
    apply (Tpl ConcurrentFactoryClass false [Ph 0; Ph 1; h; p; a]) [e; k] = apply (concurrent_factory ign h p a) [e; k] ∧
    apply (Tpl SetFactoryClass false [Ph 0; Ph 1; c; a]) [e; k] = apply (set_factory ign c a) [e; k] ∧
    apply (Tpl AssocFactoryClass false [d]) [e; k] = apply (assoc_factory ign d) [e; k] ∧
    apply (Tpl StaticHolderClass false [Ph 0]) [x] = apply static_holder [x] ∧
    apply (Tpl IntermoduleHolderClass false [Ph 0]) [x] = apply intermodule_holder [x] ∧
    apply static_holder [x] = Some (Tpl StaticHolderClass false [x]) ∧
    apply intermodule_holder [x] = Some (Tpl IntermoduleHolderClass false [x]).
  Proof.
    intros Hm. unfold hashed_factory, concurrent_factory, set_factory, assoc_factory.
    split_and!; try done.
    all: unfold Placeholder.apply; rewrite guarded_not_lambda by done.
    all: rewrite (proj2 (lambda_spec ign _)) by (by eapply MTpl; [split; [done|simpl; lia]|constructor|first [constructor|done]]).
    1-3: by destruct ign.
    apply lambda_spec in Hm.
    transitivity (match apply0 ign utype uapply d [e; k] with Some c => Some (Tpl AssocFactoryClass false [c]) | None => None end); [|by destruct ign].
    rewrite eval_tpl. assert (is_lambda ign (Tpl AssocFactoryClass false [d]) = true) as ->.
    { simpl. rewrite Hm. done. }
    unfold apply0. rewrite Hm. simpl. by destruct (eval _ _ _ d).
  Qed.

  (** The specifiers themselves are not placeholder expressions, whatever their
      arguments. *)
  Theorem C54_specifiers h p a c :
    ph (hashed_factory ign h p a) = Some false ∧ ph (concurrent_factory ign h p a) = Some false ∧
    ph (set_factory ign c a) = Some false ∧ ph (assoc_factory ign c) = Some false ∧
    ph static_holder = Some false ∧ ph intermodule_holder = Some false.
  Proof.
    split_and!; apply detects_not, lambda_false; try (by apply guarded_not_lambda);
      apply lambda_false; inversion 1 as [|? ? ? ? [_ Hl] _ _]; subst; simpl in Hl; lia.
  Qed.

  (** Members of a placeholder expression are not looked up. *)
  Theorem C54_no_lookup c :
    (mentions c → within 5 c → assoc_members ign utype iter vtype uapply c = Some (Factory int int int)) ∧
    (¬ mentions c → assoc_members ign utype iter vtype uapply c =
       match iter c, vtype c with Some i, Some v => Some (Factory i v c) | _, _ => None end).
  Proof.
    unfold assoc_members, nested_if_not_placeholder. split.
    - intros Hm Hw. by rewrite detects_yes.
    - intros Hm. rewrite detects_not by done. destruct (iter c), (vtype c); done.
  Qed.

  (** concurrent_factory_class has its members just when no argument has a placeholder. *)
  Theorem C54_empty_base e k h p a : Forall (within 5) [e; k; h; p; a] →
    ∃ b, concurrent_members ign utype uapply e k h p a = Some b ∧ (b = true ↔ ∀ t, t ∈ [e; k; h; p; a] → ¬ mentions t).
  Proof.
    intros Hw. destruct (detects ign utype uapply (Tpl CheckParams false [e; k; h; p; a])) as (b & Hb & Hm).
    { constructor. by apply Forall_forall. }
    exists (negb b). unfold concurrent_members. rewrite Hb. split; [done|]. rewrite negb_true_iff. split.
    - intros -> t Ht Hmt. assert (false = true); [|done]. apply Hm. eapply MTpl; [split; [done|simpl; lia]|done|done].
    - intros H. destruct b; [|done]. assert (mentions (Tpl CheckParams false [e; k; h; p; a])) as Hmt by (by apply Hm).
      inversion Hmt; subst. exfalso. by eapply H.
  Qed.

  (** The containers: elements are the entries; arguments left out are the
      standard functors of Key and the standard allocator. *)
  Theorem C54_containers h p a c e k h' p' a' c' :
    ¬ mentions e → ¬ mentions k →
    replaced [e; k] h h' → replaced [e; k] p p' → replaced [e; k] a a' → replaced [e; k] c c' →
    (∀ us, is_Some (iter (Tpl StdSet false (e :: us))) ∧ is_Some (vtype (Tpl StdSet false (e :: us)))) →
    let std := container_of ign utype iter vtype uapply in
    (∃ H P A, std (Tpl HashedFactoryClass false [e; k; h'; p'; a']) = Some (Container e H (Some P) A) ∧
       (h' = na → H = Tpl BoostHash false [k]) ∧ (h' ≠ na → H = h') ∧
       (p' = na → P = Tpl StdEqual false [k]) ∧ (p' ≠ na → P = p') ∧
       (a' = na → A = Tpl StdAlloc false [e]) ∧ (a' ≠ na → A = a')) ∧
    (∃ H P A, std (Tpl ConcurrentFactoryClass false [e; k; h'; p'; a']) = Some (Container (Tpl RefcountedEntry false [e]) H (Some P) A) ∧
       (h' = na → H = Tpl BoostHash false [k]) ∧ (h' ≠ na → H = h') ∧
       (p' = na → P = Tpl StdEqual false [k]) ∧ (p' ≠ na → P = p') ∧
       (a' = na → A = Tpl StdAlloc false [Tpl RefcountedEntry false [e]]) ∧ (a' ≠ na → A = a')) ∧
    (∃ C A, std (Tpl SetFactoryClass false [e; k; c'; a']) = Some (Container e C None A) ∧
       (c' = na → C = Tpl StdLess false [k]) ∧ (c' ≠ na → C = c') ∧
       (a' = na → A = Tpl StdAlloc false [e]) ∧ (a' ≠ na → A = a')).
  Proof.
    intros He Hk Rh Rp Ra Rc Hset std.
    assert (∀ t, t ∈ [e; k] → ¬ mentions t) as Hek by (intros t Ht; set_solver).
    pose proof (replaced_not_mentions ign _ _ _ Hek Rh) as Nh. pose proof (replaced_not_mentions ign _ _ _ Hek Rp) as Np.
    pose proof (replaced_not_mentions ign _ _ _ Hek Ra) as Na. pose proof (replaced_not_mentions ign _ _ _ Hek Rc) as Nc.
    assert (∀ d t, ¬ mentions d → ¬ mentions t → ¬ mentions (or_default d t)) as Nd.
    { intros d t Hd Ht. unfold or_default. by destruct (ty_eqb t na). }
    pose proof (λ d t, proj1 (or_default_spec d t)) as D1. pose proof (λ d t, proj2 (or_default_spec d t)) as D2.
    split_and!.
    - do 3 eexists. split; [reflexivity|]. split_and!; intros; first [by rewrite D1 | by rewrite D2].
    - do 3 eexists. split.
      { simpl. unfold concurrent_members. rewrite detects_not; [reflexivity|].
        apply not_mentions_tpl. intros t Ht. rewrite !elem_of_cons, elem_of_nil in Ht. intuition congruence. }
      split_and!; intros; first [by rewrite D1 | by rewrite D2].
    - do 2 eexists. split.
      { simpl. rewrite (proj2 (C54_no_lookup _)).
        - destruct (Hset [or_default (less_of k) c'; or_default (alloc_of e) a']) as [[i ->] [v ->]]. simpl. rewrite !ty_eqb_refl. reflexivity.
        - apply not_mentions_tpl. intros t Ht. rewrite !elem_of_cons, elem_of_nil in Ht.
          destruct Ht as [->|[->|[->|[]]]]; [done|..]; apply Nd; try done;
            apply not_mentions_tpl; intros t Ht; apply elem_of_list_singleton in Ht as ->; done. }
      split_and!; intros; first [by rewrite D1 | by rewrite D2].
  Qed.
End C54.

(** ** Where it does not work *)
Definition no_type : ty → option ty := λ _, None.
Definition no_apply : ty → list ty → option ty := λ _ _, None.
Definition set_iterator (t : ty) : option ty := match t with Tpl StdSet _ _ => Some (Tpl (User 90) false [t]) | _ => None end.
Definition set_value (t : ty) : option ty := match t with Tpl StdSet _ (e :: _) => Some e | _ => None end.
Definition my_hash (t : ty) : ty := Tpl (User 0) false [t].
Definition string_t : ty := Tpl (User 1) false [].
Definition entry_t : ty := Tpl (User 2) false [string_t; string_t].

(** Were hashed_factory a template with its three parameters only, mpl::apply
    would replace in it rather than call its member apply. *)
Theorem C54_masked_refuted ign utype uapply : ∃ h t,
  apply ign utype uapply (Tpl HashedFactory false [h; na; na]) [entry_t; string_t] = Some (Tpl HashedFactory false [t; na; na]).
Proof.
  exists (my_hash (Ph 1)), (default (my_hash string_t) (utype (my_hash string_t))). destruct ign; reflexivity.
Qed.
(** A placeholder inside a template with more than five parameters is left as it is. *)
Theorem C54_arity_refuted ign : ∃ h,
  apply ign no_type no_apply (hashed_factory ign h na na) [entry_t; string_t]
  = Some (Tpl HashedFactoryClass false [entry_t; string_t; h; na; na]) ∧
  h = Tpl (User 3) false (Ph 1 :: replicate 5 int).
Proof. exists (Tpl (User 3) false (Ph 1 :: replicate 5 int)). destruct ign; by vm_compute. Qed.
(** A functor template with a member [type] is replaced by that. *)
Definition has_type (t : ty) : option ty := match t with Tpl (User 0) _ _ => Some int | _ => None end.
Theorem C54_nested_type_refuted ign : ∃ h,
  replaced ign [entry_t; string_t] h (my_hash string_t) ∧
  apply ign has_type no_apply (hashed_factory ign h na na) [entry_t; string_t]
  = Some (Tpl HashedFactoryClass false [entry_t; string_t; int; na; na]).
Proof.
  exists (my_hash (Ph 1)). split; [|destruct ign; by vm_compute].
  apply RIn; [apply MTpl with (Ph 1); [split; simpl; [done|lia]|constructor|constructor]|].
  constructor; [by constructor|constructor].
Qed.
(** With a value type that has a placeholder in it, hashed_factory has its
    container; concurrent_factory and set_factory have none. *)
Theorem C54_placeholder_value_refuted ign : ∃ e k Fh Fc Fs,
  apply ign no_type no_apply (hashed_factory ign na na na) [e; k] = Some Fh ∧
  apply ign no_type no_apply (concurrent_factory ign na na na) [e; k] = Some Fc ∧
  apply ign no_type no_apply (set_factory ign na na) [e; k] = Some Fs ∧
  is_Some (container_of ign no_type set_iterator set_value no_apply Fh) ∧
  container_of ign no_type set_iterator set_value no_apply Fc = None ∧
  container_of ign no_type set_iterator set_value no_apply Fs = None.
Proof.
  exists (Tpl (User 2) false [my_hash (Ph 0); my_hash (Ph 0)]), (my_hash (Ph 0)).
  destruct ign; do 3 eexists; (split; [by vm_compute|]); (split; [by vm_compute|]); (split; [by vm_compute|]); vm_compute; split_and!; eauto.
Qed.

(** ** Examples *)
Lemma no_type_plain : plain no_type.
Proof. intros ????. discriminate. Qed.
Example C54_empty_base_case ign : concurrent_members ign no_type no_apply entry_t string_t (my_hash (Ph 1)) na na = Some false ∧
  concurrent_members ign no_type no_apply entry_t string_t (my_hash string_t) na na = Some true.
Proof. destruct ign; by vm_compute. Qed.
Example C54_detection_case ign : within 5 (my_hash (my_hash (Ph 3))) ∧ mentions ign (my_hash (my_hash (Ph 3))) ∧ ¬ mentions ign entry_t ∧
  is_placeholder_expression ign no_type no_apply (my_hash (my_hash (Ph 3))) = Some true ∧
  is_placeholder_expression ign no_type no_apply entry_t = Some false.
Proof.
  split_and!.
  - repeat (constructor; intros t Ht; apply elem_of_list_singleton in Ht as ->). constructor. lia.
  - apply lambda_spec. by destruct ign.
  - apply lambda_false. by destruct ign.
  - by destruct ign.
  - by destruct ign.
Qed.
(** hashed_factory<my_hash<_2>, na, allocator<_1>> *)
Example C54_hashed_case ign : plain no_type ∧
  apply ign no_type no_apply (hashed_factory ign (my_hash (Ph 1)) na (Tpl StdAlloc false [Ph 0])) [entry_t; string_t]
  = Some (Tpl HashedFactoryClass false [entry_t; string_t; my_hash string_t; na; Tpl StdAlloc false [entry_t]]) ∧
  container_of ign no_type set_iterator set_value no_apply
    (Tpl HashedFactoryClass false [entry_t; string_t; my_hash string_t; na; Tpl StdAlloc false [entry_t]])
  = Some (Container entry_t (my_hash string_t) (Some (Tpl StdEqual false [string_t])) (Tpl StdAlloc false [entry_t])).
Proof. split; [apply no_type_plain|]. by destruct ign. Qed.
Example C54_concurrent_case ign : plain no_type ∧
  apply ign no_type no_apply (concurrent_factory ign (my_hash (Ph 1)) na na) [entry_t; string_t]
  = Some (Tpl ConcurrentFactoryClass false [entry_t; string_t; my_hash string_t; na; na]) ∧
  container_of ign no_type set_iterator set_value no_apply (Tpl ConcurrentFactoryClass false [entry_t; string_t; my_hash string_t; na; na])
  = Some (Container (Tpl RefcountedEntry false [entry_t]) (my_hash string_t) (Some (Tpl StdEqual false [string_t]))
                    (Tpl StdAlloc false [Tpl RefcountedEntry false [entry_t]])).
Proof. split; [apply no_type_plain|]. by destruct ign. Qed.
Example C54_set_case ign : plain no_type ∧
  apply ign no_type no_apply (set_factory ign (my_hash (Ph 1)) na) [entry_t; string_t]
  = Some (Tpl SetFactoryClass false [entry_t; string_t; my_hash string_t; na]) ∧
  container_of ign no_type set_iterator set_value no_apply (Tpl SetFactoryClass false [entry_t; string_t; my_hash string_t; na])
  = Some (Container entry_t (my_hash string_t) None (Tpl StdAlloc false [entry_t])).
Proof. split; [apply no_type_plain|]. by destruct ign. Qed.
(** assoc_container_factory<std::set<_1, less<_2>>>: members are looked up in
    the set of entries, not in the placeholder expression *)
Example C54_assoc_case ign : let cs := Tpl StdSet false [Ph 0; Tpl StdLess false [Ph 1]] in
  let s := Tpl StdSet false [entry_t; Tpl StdLess false [string_t]] in
  mentions ign cs ∧ within 5 cs ∧ ¬ mentions ign s ∧
  apply ign no_type no_apply (assoc_factory ign cs) [entry_t; string_t] = Some (Tpl AssocFactoryClass false [s]) ∧
  apply ign no_type no_apply (Tpl AssocFactoryClass false [cs]) [entry_t; string_t] = Some (Tpl AssocFactoryClass false [s]) ∧
  assoc_members ign no_type set_iterator set_value no_apply cs = Some (Factory int int int) ∧
  assoc_members ign no_type set_iterator set_value no_apply s = Some (Factory (Tpl (User 90) false [s]) entry_t s).
Proof.
  split_and!; try (by destruct ign).
  - apply lambda_spec. by destruct ign.
  - constructor. intros t Ht. rewrite !elem_of_cons, elem_of_nil in Ht. destruct Ht as [->|[->|[]]].
    + constructor. lia.
    + constructor. intros t Ht. apply elem_of_list_singleton in Ht as ->. constructor. lia.
  - apply lambda_false. by destruct ign.
Qed.
Example C54_containers_case ign : ¬ mentions ign entry_t ∧ ¬ mentions ign string_t ∧
  replaced ign [entry_t; string_t] (my_hash (Ph 1)) (my_hash string_t) ∧ replaced ign [entry_t; string_t] na na ∧
  (∀ us, is_Some (set_iterator (Tpl StdSet false (entry_t :: us))) ∧ is_Some (set_value (Tpl StdSet false (entry_t :: us)))).
Proof.
  split_and!; try (apply lambda_false; by destruct ign).
  - apply (eval_replaced ign no_type); [apply no_type_plain|by destruct ign].
  - apply (eval_replaced ign no_type); [apply no_type_plain|by destruct ign].
  - intros. split; by eexists.
Qed.

Print Assumptions C54_detection.
Print Assumptions C54_hashed.
Print Assumptions C54_concurrent.
Print Assumptions C54_set.
Print Assumptions C54_assoc.
Print Assumptions C54_classes.
Print Assumptions C54_specifiers.
Print Assumptions C54_no_lookup.
Print Assumptions C54_empty_base.
Print Assumptions C54_containers.
Print Assumptions C54_masked_refuted.
Print Assumptions C54_arity_refuted.
Print Assumptions C54_nested_type_refuted.
Print Assumptions C54_placeholder_value_refuted.
