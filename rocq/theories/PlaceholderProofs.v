(** Vocabulary for, and proofs about, Placeholder.v. *)
From Verif Require Export Placeholder.

(** ** Vocabulary (independent of the model's functions) *)
Section spec.
  Context (ignores_int : bool) (user_type : ty → option ty).
  (** a template whose arguments MPL sees *)
  Definition visible (v : bool) (ts : list ty) : Prop := (v = true → ignores_int = true) ∧ 1 ≤ length ts ≤ 5.
  (** [t] has a placeholder in it, not hidden by a template MPL cannot see into *)
  Inductive mentions : ty → Prop :=
  | MPh n : mentions (Ph n)
  | MTpl f v ts t : visible v ts → t ∈ ts → mentions t → mentions (Tpl f v ts).
  (** the indices of the placeholders of [t] are less than [n] *)
  Inductive within (n : nat) : ty → Prop :=
  | WPh i : i < n → within n (Ph i)
  | WTpl f v ts : (∀ t, t ∈ ts → within n t) → within n (Tpl f v ts).
  (** literal replacement of placeholders *)
  Inductive replaced (args : list ty) : ty → ty → Prop :=
  | RPh n u : args !! n = Some u → replaced args (Ph n) u
  | ROut t : ¬ mentions t → replaced args t t
  | RIn f v ts us : mentions (Tpl f v ts) → Forall2 (replaced args) ts us → replaced args (Tpl f v ts) (Tpl f v us).
  (** no class involved has a member [type] other than itself *)
  Definition plain : Prop := ∀ f v us u, user_type (Tpl f v us) = Some u → u = Tpl f v us.
End spec.

Section ind.
  Context (P : ty → Prop) (HPh : ∀ n, P (Ph n)) (HTpl : ∀ f v ts, Forall P ts → P (Tpl f v ts)).
  Fixpoint ty_nested_ind (t : ty) : P t :=
    match t with
    | Ph n => HPh n
    | Tpl f v ts => HTpl f v ts ((fix go (ts : list ty) : Forall P ts :=
                                    match ts with [] => List.Forall_nil P | t :: ts => List.Forall_cons P t ts (ty_nested_ind t) (go ts) end) ts)
    end.
End ind.

Lemma ty_eqb_spec t u : ty_eqb t u = true ↔ t = u.
Proof.
  revert u. induction t as [n|f v ts IH] using ty_nested_ind; intros [m|g w us]; simpl; try (split; congruence).
  - rewrite bool_decide_eq_true. split; congruence.
  - rewrite !andb_true_iff, bool_decide_eq_true, Bool.eqb_true_iff.
    assert (∀ us, (fix go (ts us : list ty) : bool :=
         match ts, us with [], [] => true | t :: ts, u :: us => ty_eqb t u && go ts us | _, _ => false end) ts us = true ↔ ts = us) as Hl.
    { clear us. induction IH as [|t ts Ht _ IHl]; intros [|u us]; try (split; congruence).
      rewrite andb_true_iff, Ht, IHl. split; [intros [-> ->]; done|intros [= -> ->]; done]. }
    rewrite Hl. split; [intros [[-> ->] ->]; done|intros [= -> -> ->]; done].
Qed.
Lemma ty_eqb_refl t : ty_eqb t t = true.
Proof. by apply ty_eqb_spec. Qed.

Section proofs.
  Context (ign : bool) (utype : ty → option ty) (iter vtype : ty → option ty) (uapply : ty → list ty → option ty).
  Notation seen := (seen ign).
  Notation is_lambda := (is_lambda ign).
  Notation eval := (eval ign utype).
  Notation mentions := (mentions ign).
  Notation replaced := (replaced ign).
  Notation apply := (apply ign utype uapply).

  Lemma seen_spec v (ts : list ty) : seen v (length ts) = true ↔ visible ign v ts.
  Proof.
    unfold Placeholder.seen, visible, arity. rewrite andb_true_iff, orb_true_iff, negb_true_iff, bool_decide_eq_true.
    destruct v, ign; intuition congruence.
  Qed.
  Lemma lambda_spec t : is_lambda t = true ↔ mentions t.
  Proof.
    induction t as [n|f v ts IH] using ty_nested_ind; simpl.
    - split; [intros _; constructor|done].
    - rewrite andb_true_iff, seen_spec, existsb_exists. rewrite Forall_forall in IH. split.
      + intros [Hv (t & Hin & Ht)]. rewrite <- elem_of_list_In in Hin. apply (MTpl _ f v ts t Hv Hin). by apply IH.
      + inversion 1; subst. split; [done|]. exists t. rewrite <- elem_of_list_In. split; [done|]. by apply IH.
  Qed.
  Lemma lambda_false t : is_lambda t = false ↔ ¬ mentions t.
  Proof. rewrite <- lambda_spec. destruct (is_lambda t); split; congruence. Qed.
  Lemma all_some_spec {X} (l : list (option X)) xs : all_some l = Some xs ↔ Forall2 (λ o x, o = Some x) l xs.
  Proof.
    revert xs. induction l as [|o l IH]; intros xs; simpl.
    - split; [intros [= <-]; constructor|inversion 1; done].
    - destruct o as [x|], (all_some l) as [ys|]; split; try congruence.
      + intros [= <-]. constructor; [done|]. by apply IH.
      + inversion 1 as [|???? Hx Hl]; subst. apply IH in Hl. by simplify_eq.
      + inversion 1 as [|???? Hx Hl]; subst. apply IH in Hl. congruence.
      + inversion 1; congruence.
      + inversion 1; congruence.
  Qed.
  Lemma eval_tpl args f v ts : eval args (Tpl f v ts) =
    if is_lambda (Tpl f v ts) then
      match all_some (map (eval args) ts) with
      | Some us => Some (default (Tpl f v us) (nested_type utype (Tpl f v us)))
      | None => None
      end
    else Some (Tpl f v ts).
  Proof. reflexivity. Qed.
  Lemma eval_out args t : ¬ mentions t → eval args t = Some t.
  Proof.
    intros Hn. destruct t as [n|f v ts]; [destruct Hn; constructor|].
    rewrite eval_tpl. apply lambda_false in Hn. by rewrite Hn.
  Qed.
  Lemma eval_within args t : within (length args) t → is_Some (eval args t).
  Proof.
    induction t as [n|f v ts IH] using ty_nested_ind; intros H; inversion H as [|? ? ? H2]; subst.
    - by apply lookup_lt_is_Some.
    - rewrite eval_tpl. destruct (is_lambda _); [|by eauto].
      assert (∃ us, all_some (map (eval args) ts) = Some us) as (us & ->); [|by eauto].
      clear H. rewrite Forall_forall in IH. induction ts as [|t ts IHl]; [by eexists|]. simpl.
      destruct (IH t (elem_of_list_here _ _)) as [u ->]. { apply H2. constructor. }
      destruct IHl as [us ->]; [| |by eauto].
      + intros x Hx. apply IH. by constructor.
      + intros x Hx. apply H2. by constructor.
  Qed.
  Lemma nested_plain t : plain utype → default t (nested_type utype t) = t.
  Proof.
    intros Hp. destruct t as [n|f v ts]; [done|]. destruct f; try done. simpl.
    destruct (utype _) eqn:E; [|done]. simpl. by apply Hp in E.
  Qed.
  Lemma eval_replaced args t u : plain utype → eval args t = Some u ↔ replaced args t u.
  Proof.
    intros Hp. revert u. induction t as [n|f v ts IH] using ty_nested_ind; intros u.
    - split; [intros; by constructor|]. inversion 1; subst; [done|]. exfalso. apply H0. constructor.
    - rewrite eval_tpl. destruct (is_lambda (Tpl f v ts)) eqn:El.
      + apply lambda_spec in El.
        assert (∀ us, all_some (map (eval args) ts) = Some us ↔ Forall2 (replaced args) ts us) as Hl.
        { intros us. rewrite all_some_spec, Forall2_fmap_l. clear El. revert us. induction IH as [|t ts Ht _ IHl]; intros us.
          - split; inversion 1; constructor.
          - split; inversion 1; subst; constructor; try (by apply Ht); by apply IHl. }
        destruct (all_some _) as [us|].
        * rewrite nested_plain by done. split.
          -- intros [= <-]. constructor; [done|]. by apply Hl.
          -- inversion 1; subst; [done|]. f_equal. f_equal. assert (Some us = Some us0) as [= ->]; [by apply Hl|done].
        * split; [done|]. inversion 1; subst; [done|]. exfalso. assert (None = Some us) by (by apply Hl). done.
      + apply lambda_false in El. split; [intros [= <-]; by constructor|]. inversion 1; by subst.
  Qed.

  (** ** Detection *)
  Lemma helper_apply t : apply (Tpl PhHelper false [t]) (replicate arity int) =
    if is_lambda t then match eval (replicate arity int) t with Some u => Some (Tpl PhHelper false [u]) | None => None end else Some int.
  Proof.
    unfold Placeholder.apply. assert (is_lambda (Tpl PhHelper false [t]) = is_lambda t) as E.
    { simpl. unfold Placeholder.seen. simpl. by rewrite orb_false_r. }
    rewrite E. destruct (is_lambda t) eqn:El; [|done].
    rewrite eval_tpl, E. change (map (eval ?a) [t]) with [eval a t]. simpl.
    destruct (eval _ t); done.
  Qed.
  Lemma detects t : within 5 t → ∃ b, is_placeholder_expression ign utype uapply t = Some b ∧ (b = true ↔ mentions t).
  Proof.
    intros Hw. unfold is_placeholder_expression. rewrite helper_apply. destruct (is_lambda t) eqn:El.
    - destruct (eval_within (replicate arity int) t) as [u ->]; [done|]. exists true. split; [done|].
      split; [intros _; by apply lambda_spec|done].
    - exists false. split; [done|]. apply lambda_false in El. split; done.
  Qed.
  Lemma detects_not t : ¬ mentions t → is_placeholder_expression ign utype uapply t = Some false.
  Proof.
    intros Hn. apply lambda_false in Hn. unfold is_placeholder_expression. by rewrite helper_apply, Hn.
  Qed.
  Lemma detects_yes t : within 5 t → mentions t → is_placeholder_expression ign utype uapply t = Some true.
  Proof. intros Hw Hm. destruct (detects t Hw) as ([] & -> & Hb); [done|]. apply Hb in Hm. done. Qed.

  (** ** Specifiers *)
  Lemma guarded_not_lambda f ts : ts ≠ [] → is_lambda (guarded ign f ts) = false.
  Proof.
    intros Hne. apply lambda_false. unfold guarded. destruct ign eqn:E; inversion 1 as [|? ? ? ? [Hv Hl] Hin Hm]; subst.
    - rewrite app_length in Hl. destruct ts; [done|]. simpl in Hl. lia.
    - specialize (Hv eq_refl). done.
  Qed.
  Lemma class_eval f args ts :
    length ts ≤ 3 →
    match f with HashedFactoryClass | SetFactoryClass | ConcurrentFactoryClass => True | _ => False end →
    ∀ e k, args = [e; k] →
    eval args (Tpl f false (Ph 0 :: Ph 1 :: ts)) =
    match all_some (map (eval args) ts) with Some us => Some (Tpl f false (e :: k :: us)) | None => None end.
  Proof.
    intros Hl Hf e k ->. rewrite eval_tpl.
    assert (is_lambda (Tpl f false (Ph 0 :: Ph 1 :: ts)) = true) as ->.
    { apply lambda_spec. apply MTpl with (Ph 0); [split; simpl; [done|lia]|constructor|constructor]. }
    simpl. destruct (all_some _); [|done]. by destruct f.
  Qed.
End proofs.
