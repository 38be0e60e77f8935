(** C45, C46: which overload is called, and what it does. *)
From Verif Require Import Forward ForwardProofs.

(** ** Specification
    An argument [e] of the caller and the argument [e'] reaching the callee:
    of the same class; with rvalue references in the language, of the same
    constness and category, else an lvalue, const iff the original is const or
    an rvalue. *)
Definition reaches (m : mode) (e e' : expr) : Prop :=
  e_ty e' = e_ty e ∧
  (rvalues m = true → e_const e' = e_const e ∧ e_lv e' = e_lv e) ∧
  (rvalues m = false → e_lv e' = true ∧ (e_const e' = true ↔ e_const e = true ∨ e_lv e = false)).

Lemma reaches_arrives m e e' : reaches m e e' ↔ e' = arrives m e.
Proof.
  unfold reaches, arrives. destruct (rvalues m), e as [t c l], e' as [t' c' l']; simpl; split.
  - intros (->&H&_). by destruct (H eq_refl) as [-> ->].
  - intros [= -> -> ->]. naive_solver.
  - intros (->&_&H). destruct (H eq_refl) as [-> Hc]. f_equal. destruct c', c, l; naive_solver.
  - intros [= -> -> ->]. split_and!; [done|done|]. intros _. destruct c, l; naive_solver.
Qed.
Lemma reaches_map m args args' : Forall2 (reaches m) args args' ↔ args' = map (arrives m) args.
Proof.
  revert args'. induction args as [|e args IH]; intros args'; simpl.
  - split; [by intros ->%Forall2_nil_inv_l|by intros ->].
  - split.
    + intros H. inversion H as [|? e' ? l Hr Hf]; subst. apply reaches_arrives in Hr as ->. by apply IH in Hf as ->.
    + intros ->. constructor; [by apply reaches_arrives|by apply IH].
Qed.
Lemma arrives_arrives m e : arrives m (arrives m e) = arrives m e.
Proof. unfold arrives. destruct (rvalues m); [done|]. simpl. by rewrite orb_false_r. Qed.

Section C45.
  Context (derives : nat → nat → bool) (ucv : nat → nat → option (bool * bool)) (is_il : nat → bool).
  Notation viable := (viable derives ucv is_il).
  Notation better := (better derives ucv is_il).
  Notation select := (select derives ucv is_il).

  (** One overload is called, and the arguments reach the callee. *)
  Theorem C45_forward m args : limit m (length args) →
    ∃ c, select (fwd m) args = Some c ∧ c_act c = AForward ∧ Forall2 (reaches m) args (pass c args).
  Proof.
    intros Hl. exists (the_fwd m args). split_and!; [by apply select_fwd|apply the_fwd_act|]. apply reaches_map, pass_the_fwd.
  Qed.
  (** The same for the set without the function of no arguments. *)
  Theorem C45_forward_args m args : args ≠ [] → limit m (length args) →
    ∃ c, select (fwd_with_args m) args = Some c ∧ c_act c = AForward ∧ Forall2 (reaches m) args (pass c args).
  Proof.
    intros Hn Hl. exists (the_fwd m args). split_and!; [by apply select_fwd_args|apply the_fwd_act|]. apply reaches_map, pass_the_fwd.
  Qed.
  (** It is the only one better than every other viable one. *)
  Theorem C45_unique m args : limit m (length args) →
    exists! c, c ∈ fwd m ∧ viable args c = true ∧ ∀ d, d ∈ fwd m → viable args d = true → d ≠ c → better c d args = true.
  Proof.
    intros Hl. exists (the_fwd m args). split; [by apply select_sound, select_fwd|]. intros c (Hc&Hv&Hb).
    pose proof (select_intro _ _ _ _ _ _ Hc Hv Hb) as H. rewrite select_fwd in H by done. by simplify_eq.
  Qed.
  (** Beyond the limit nothing is viable. *)
  Theorem C45_beyond_limit m args : ¬ limit m (length args) → select (fwd m) args = None ∧ select (fwd_with_args m) args = None.
  Proof.
    intros Hl. assert (∀ d, d ∈ fwd m → viable args d = false) as H.
    { intros d Hd. apply not_true_iff_false. intros [Hlen _]%viable_spec. destruct args as [|e args]; [destruct m; simpl in Hl; try lia; done|].
      eapply fwd_member in Hd; [|exact Hlen|done]. by destruct (fwd_args_member _ _ _ Hd Hlen) as (_&?&_). }
    split; apply select_none; [done|]. intros d Hd. apply H. destruct m; simpl; [done|by right|by right].
  Qed.
End C45.

(** The claim that every argument keeps its category fails without rvalue
    references: an rvalue that is not const is passed on as a const lvalue. *)
Theorem C45_category_refuted : ∃ m args c, limit m (length args) ∧
  select (λ _ _, false) (λ _ _, None) (λ _, false) (fwd m) args = Some c ∧ pass c args ≠ args.
Proof. exists (Cxx03 5), [Expr 0 false false], (tmpl [PCRef]). split; [simpl; lia|]. split; [by vm_compute|by vm_compute]. Qed.

Example C45_example :
  (λ c, (c_par <$> c, flip pass [Expr 7 false true; Expr 8 true true; Expr 9 false false] <$> c)) (select (λ _ _, false) (λ _ _, None) (λ _, false) (fwd (Cxx03 5)) [Expr 7 false true; Expr 8 true true; Expr 9 false false]) =
    (Some [PRef; PCRef; PCRef], Some [Expr 7 false true; Expr 8 true true; Expr 9 true true]) ∧
  flip pass [Expr 7 false true; Expr 9 false false] <$> select (λ _ _, false) (λ _ _, None) (λ _, false) (fwd Variadic) [Expr 7 false true; Expr 9 false false] = Some [Expr 7 false true; Expr 9 false false] ∧
  select (λ _ _, false) (λ _ _, None) (λ _, false) (fwd (Rvalue 1)) [Expr 7 false true; Expr 9 false false] = None.
Proof. vm_compute. split_and!; reflexivity. Qed.

Section C46.
  Context (derives : nat → nat → bool) (ucv : nat → nat → option (bool * bool)) (is_il : nat → bool) (m : mode).
  Context (fw value rep : nat) (pol : policy).
  (** the classes are different and no initializer lists; forwarding takes at
      least one argument *)
  Context (Hfv : fw ≠ value) (Hvr : value ≠ rep).
  Context (Hilf : is_il fw = false) (Hilv : is_il value = false) (Hlim : limit m 1).
  Notation select := (select derives ucv is_il).
  Notation ctors := (ctors m fw).
  Notation assigns := (assigns m fw value).
  Notation inserts := (inserts m value).
  Notation insert_values := (insert_values m value).
  Notation reps := (reps m value rep pol).
  Notation construct := (construct derives ucv is_il m fw value rep pol).
  Notation insert := (insert derives ucv is_il m value rep pol).
  Notation insert_value := (insert_value derives ucv is_il m value rep pol).
  Notation make_rep := (make_rep derives ucv is_il m value rep pol).
  Notation assign := (assign derives ucv is_il m fw value rep pol).
  Notation implicit := (implicit derives ucv is_il m fw).

  Lemma fwd_sub d : d ∈ fwd_with_args m → d ∈ fwd m.
  Proof. destruct m; simpl; [done|by right|by right]. Qed.
  Definition A_ctor : bool → bool → action := λ _ _, ACopy.
  Definition A_val : bool → bool → action := AValue.

  Ltac fixed_case t := match goal with
    | |- sort _ _ _ (fixed _ ?t' ?c ?l) => destruct (decide (t' = t)) as [Heq|Hneq]; [subst; right; right; left; exists c, l; split; [done|done]|right; left; by eexists _, _, _, _]
    end.
  Lemma ctors_sort t d : d ∈ ctors → sort m A_ctor t d.
  Proof.
    unfold Forward.ctors, if_rvalues. rewrite elem_of_cons, !elem_of_app. intros [->|[H|[H|[H|H]]]].
    - by do 4 right.
    - left. by apply fwd_sub.
    - destruct (rvalues m); [|by apply elem_of_nil in H]. apply elem_of_list_singleton in H as ->. do 3 right. by left.
    - apply elem_of_cons in H as [->|H%elem_of_list_singleton]; [|subst d]; fixed_case t.
    - destruct (rvalues m) eqn:Em; [|by apply elem_of_nil in H]. apply elem_of_cons in H as [->|H%elem_of_list_singleton]; [|subst d]; (destruct (decide (fw = t)) as [<-|?]; [right; right; left; eexists _, _; split; [done|by rewrite Em]|right; left; by eexists _, _, _, _]).
  Qed.
  Lemma inserts_sort t d : d ∈ inserts → sort m A_val t d.
  Proof.
    unfold Forward.inserts, if_rvalues. rewrite !elem_of_app. intros [H|[H|H]].
    - by left.
    - apply elem_of_cons in H as [->|H%elem_of_list_singleton]; [|subst d]; fixed_case t.
    - destruct (rvalues m) eqn:Em; [|by apply elem_of_nil in H]. apply elem_of_cons in H as [->|H%elem_of_list_singleton]; [|subst d]; (destruct (decide (value = t)) as [<-|?]; [right; right; left; eexists _, _; split; [done|by rewrite Em]|right; left; by eexists _, _, _, _]).
  Qed.
  Definition A_rep (t : nat) : bool → bool → action := λ c l, if decide (t = rep) then ARep else AValue c l.
  Lemma reps_sort t d : d ∈ reps → sort m (A_rep t) t d.
  Proof.
    assert (∀ a t' c l, (rvalues m = false → l = true) → (t' = t → a = A_rep t c l) → sort m (A_rep t) t (fixed a t' c l)) as Hs.
    { intros a t' c l Hr Ha. destruct (decide (t' = t)) as [->|]; [|right; left; by eexists _, _, _, _]. right; right; left. exists c, l. by rewrite Ha. }
    assert (t = rep → ∀ c l, ARep = A_rep t c l) as Hr by (intros -> c l; unfold A_rep; by rewrite decide_True).
    assert (t = value → ∀ c l, AValue c l = A_rep t c l) as Hv by (intros -> c l; unfold A_rep; by rewrite decide_False).
    unfold Forward.reps, if_rvalues. rewrite elem_of_app, elem_of_cons, !elem_of_app. intros [H|[->|[H|H]]].
    - by left.
    - apply Hs; [done|]. intros <-. by apply Hr.
    - destruct (rvalues m) eqn:Em; [|by apply elem_of_nil in H]. apply elem_of_list_singleton in H as ->. apply Hs; [done|]. intros <-. by apply Hr.
    - destruct pol; [by apply elem_of_nil in H| |].
      + apply elem_of_cons in H as [->|H]; [apply Hs; [done|]; intros <-; by apply Hv|]. destruct (rvalues m) eqn:Em; [|by apply elem_of_nil in H]. apply elem_of_list_singleton in H as ->. apply Hs; [done|]. intros <-. by apply Hv.
      + apply elem_of_cons in H as [->|H]; [apply Hs; [done|]; intros <-; by apply Hv|]. destruct (rvalues m) eqn:Em; [|by apply elem_of_nil in H]. apply elem_of_list_singleton in H as ->. apply Hs; [done|]. intros <-. by apply Hv.
  Qed.
  Lemma fwd_not_default : Cand ADefault false false false [] ∉ fwd m.
  Proof.
    assert (Cand ADefault false false false [] ∉ fwd_with_args m) as H.
    { intros H. apply (fwd_args_member m _ 0) in H as (_&_&?&_); done. }
    destruct m; simpl in *; [done| |]; rewrite elem_of_cons; by intros [?|?].
  Qed.
  Lemma fwd_not_fixed a t c l : fixed a t c l ∉ fwd m.
  Proof.
    intros H. assert (length (params (fixed a t c l) 1) = 1) as Hl by done. apply fwd_member with (n := 1) in H; [|done|done].
    by destruct (fwd_args_member m _ 1 H Hl) as (_&_&_&Ht&_).
  Qed.
  Lemma ctors_fixed a t c l : fixed a t c l ∈ ctors → t = fw.
  Proof.
    unfold Forward.ctors, if_rvalues. rewrite elem_of_cons, !elem_of_app. intros [H|[H|[H|[H|H]]]]; [done| | | |].
    - by apply fwd_sub, fwd_not_fixed in H.
    - destruct (rvalues m); [by apply elem_of_list_singleton in H|by apply elem_of_nil in H].
    - apply elem_of_cons in H as [[=]|[=]%elem_of_list_singleton]; done.
    - destruct (rvalues m); [|by apply elem_of_nil in H]. apply elem_of_cons in H as [[=]|[=]%elem_of_list_singleton]; done.
  Qed.
  Lemma inserts_fixed a t c l : fixed a t c l ∈ inserts → t = value.
  Proof.
    unfold Forward.inserts, if_rvalues. rewrite !elem_of_app. intros [H|[H|H]].
    - by apply fwd_not_fixed in H.
    - apply elem_of_cons in H as [[=]|[=]%elem_of_list_singleton]; done.
    - destruct (rvalues m); [|by apply elem_of_nil in H]. apply elem_of_cons in H as [[=]|[=]%elem_of_list_singleton]; done.
  Qed.
  Lemma reps_fixed a t c l : fixed a t c l ∈ reps → t = rep ∨ t = value ∧ pol ≠ PDefault.
  Proof.
    unfold Forward.reps, if_rvalues. rewrite elem_of_app, elem_of_cons, !elem_of_app. intros [H|[H|[H|H]]].
    - by apply fwd_not_fixed in H.
    - simplify_eq. by left.
    - destruct (rvalues m); [|by apply elem_of_nil in H]. apply elem_of_list_singleton in H. simplify_eq. by left.
    - right. destruct pol; [by apply elem_of_nil in H| |]; (apply elem_of_cons in H as [H|H]; [by simplify_eq|]; destruct (rvalues m); [|by apply elem_of_nil in H]; apply elem_of_list_singleton in H; by simplify_eq).
  Qed.

  Lemma fwd_not_ilist : Cand AIList true false false [PIList] ∉ fwd m.
  Proof. intros H. apply fwd_member with (n := 1) in H; [|done|done]. by apply (fwd_args_member m _ 1) in H as (_&_&?&_). Qed.
  Lemma inserts_ilist : Cand AIList true false false [PIList] ∉ inserts.
  Proof.
    unfold Forward.inserts, if_rvalues. rewrite !elem_of_app. intros [H|[H|H]]; [by apply fwd_not_ilist in H| |].
    - apply elem_of_cons in H as [H|H%elem_of_list_singleton]; done.
    - destruct (rvalues m); [|by apply elem_of_nil in H]. apply elem_of_cons in H as [H|H%elem_of_list_singleton]; done.
  Qed.
  Lemma reps_ilist : Cand AIList true false false [PIList] ∉ reps.
  Proof.
    unfold Forward.reps, if_rvalues. rewrite elem_of_app, elem_of_cons, !elem_of_app. intros [H|[H|[H|H]]]; [by apply fwd_not_ilist in H|done| |].
    - destruct (rvalues m); [by apply elem_of_list_singleton in H|by apply elem_of_nil in H].
    - destruct pol; [by apply elem_of_nil in H| |]; (apply elem_of_cons in H as [H|H]; [done|]; destruct (rvalues m); [by apply elem_of_list_singleton in H|by apply elem_of_nil in H]).
  Qed.
  (** const t& and, with rvalue references, t&&: the latter exactly for
      rvalues that are not const *)
  Lemma select_two e mv : e_ty e = value → mv = rvalues m && (negb (e_const e) && negb (e_lv e)) →
    select (fixed (AValue true true) value true true :: if_rvalues m [fixed (AValue false false) value false false]) [e] = Some (fixed (AValue (negb mv) (negb mv)) value (negb mv) (negb mv)).
  Proof.
    intros He ->.
    assert (∀ c l, conv derives ucv is_il (PFix value c l) e = if binds c l (e_const e) (e_lv e) then Some (Ics Exact value (Some (c, l))) else None) as Hc.
    { intros c l. simpl. by rewrite decide_True by done. }
    apply select_intro.
    - unfold if_rvalues. destruct (rvalues m), (e_const e), (e_lv e); simpl; (by left) || (by right; left).
    - eapply viable_one; [done|]. rewrite Hc. destruct (rvalues m), (e_const e), (e_lv e); simpl; by eexists.
    - intros d Hd Hv Hne. assert (∃ c, d = fixed (AValue c c) value c c) as [c ->].
      { apply elem_of_cons in Hd as [->|Hd]; [by exists true|]. unfold if_rvalues in Hd. destruct (rvalues m); [|by apply elem_of_nil in Hd]. apply elem_of_list_singleton in Hd as ->. by exists false. }
      apply viable_one_inv in Hv as (q&y&[= <-]&Hy). rewrite Hc in Hy.
      assert (rvalues m = false → c = true) as Hr.
      { intros Hm. unfold if_rvalues in Hd. rewrite Hm in Hd. apply elem_of_list_singleton in Hd. by injection Hd. }
      destruct c; [|destruct (rvalues m); [|by specialize (Hr eq_refl)]; exfalso; apply Hne; destruct (e_const e), (e_lv e); done].
      destruct (rvalues m && (negb (e_const e) && negb (e_lv e))) eqn:Emv; [|done]. apply andb_true_iff in Emv as [_ Emv]. apply andb_true_iff in Emv as [Ec%negb_true_iff El%negb_true_iff].
      pose proof (Hc false false) as H2. rewrite Ec, El in H2, Hy. injection Hy as <-. pose proof (Hc true true) as H1. rewrite Ec, El in H1.
      cbn [negb]. rewrite (better_one derives ucv is_il (fixed (AValue false false) value false false) (fixed (AValue true true) value true true) e _ _ _ _ eq_refl eq_refl H2 H1).
      unfold Forward.better_ics. simpl. by rewrite !decide_True by done.
  Qed.

  (** *** From a flyweight *)
  Theorem C46_copy e : e_ty e = fw → construct [e] = RCopy.
  Proof.
    intros He. unfold Forward.construct. rewrite (select_exact _ _ _ m A_ctor); [done|by rewrite He| |intros d Hd; by apply ctors_sort].
    rewrite He. unfold Forward.ctors, if_rvalues, A_ctor, arrives. destruct (rvalues m), e as [t [] []]; simpl; set_solver.
  Qed.

  (** *** From other arguments *)
  Lemma rep_key args : length args ≠ 1 ∧ limit m (length args) ∨ (∃ e, args = [e] ∧ e_ty e ≠ rep ∧ (e_ty e = value → pol = PDefault)) → make_rep args = RKey (map (arrives m) args).
  Proof.
    intros H. assert (select reps args = Some (the_fwd m args)) as Hs.
    { destruct H as [[Hn Hl]|(e&->&Hr&Hv)].
      - eapply (select_several _ _ _ m _ 0); [done|apply elem_of_app; left; by apply the_fwd_in|intros d Hd; by apply reps_sort|]. left. unfold Forward.reps, if_rvalues. rewrite elem_of_app, elem_of_cons, !elem_of_app.
        intros [H|[H|[H|H]]]; [|done| |].
        + by apply fwd_not_default in H.
        + destruct (rvalues m); [by apply elem_of_list_singleton in H|by apply elem_of_nil in H].
        + destruct pol; [by apply elem_of_nil in H| |]; (apply elem_of_cons in H as [H|H]; [done|]; destruct (rvalues m); [by apply elem_of_list_singleton in H|by apply elem_of_nil in H]).
      - eapply select_other; [by intros ?%reps_ilist|done|apply elem_of_app; left; by apply the_fwd_in|]. intros d Hd. split; [by apply reps_sort|]. intros a c l ->. apply reps_fixed in Hd as [?|[? ?]]; [done|]. auto. }
    unfold Forward.make_rep. rewrite Hs, the_fwd_act. by rewrite pass_the_fwd.
  Qed.
  Lemma insert_key args : length args ≠ 1 ∧ limit m (length args) ∨ (∃ e, args = [e] ∧ e_ty e ≠ rep ∧ e_ty e ≠ value) → insert args = RKey (map (arrives m) args).
  Proof.
    intros H. assert (select inserts args = Some (the_fwd m args)) as Hs.
    { destruct H as [[Hn Hl]|(e&->&Hr&Hv)].
      - eapply (select_several _ _ _ m _ 0); [done|apply elem_of_app; left; by apply the_fwd_in|intros d Hd; by apply inserts_sort|]. left. unfold Forward.inserts, if_rvalues. rewrite !elem_of_app.
        intros [H|[H|H]].
        + by apply fwd_not_default in H.
        + apply elem_of_cons in H as [H|H%elem_of_list_singleton]; done.
        + destruct (rvalues m); [|by apply elem_of_nil in H]. apply elem_of_cons in H as [H|H%elem_of_list_singleton]; done.
      - eapply select_other; [by intros ?%inserts_ilist|done|apply elem_of_app; left; by apply the_fwd_in|]. intros d Hd. split; [by apply inserts_sort|]. intros a c l ->. by apply inserts_fixed in Hd. }
    unfold Forward.insert. rewrite Hs, the_fwd_act, pass_the_fwd. rewrite rep_key.
    - f_equal. rewrite map_map. apply map_ext. intros e. apply arrives_arrives.
    - destruct H as [[Hn Hl]|(e&->&Hr&Hv)]; [left; by rewrite map_length|]. right. exists (arrives m e). assert (e_ty (arrives m e) = e_ty e) as Ht by (unfold arrives; by destruct (rvalues m)). rewrite Ht. naive_solver.
  Qed.
  Theorem C46_key args : limit m (length args) → (∀ e, args = [e] → e_ty e ≠ fw ∧ e_ty e ≠ value ∧ e_ty e ≠ rep ∧ is_il (e_ty e) = false) →
    ∃ args', construct args = RKey args' ∧ Forall2 (reaches m) args args'.
  Proof.
    intros Hl Hone. exists (map (arrives m) args). split; [|by apply reaches_map]. destruct args as [|e [|e2 args]].
    - unfold Forward.construct. assert (select ctors [] = Some (Cand ADefault false false false [])) as ->.
      { apply select_intro; [by left|done|]. intros d Hd Hv Hne. pose proof Hv as [Hlen _]%viable_spec. destruct (ctors_sort 0 d Hd) as [H|[(a&t'&c&l&->&Ht)|[(c&l&->&Hr)|[->| ->]]]]; try done.
        unfold Forward.ctors in Hd. apply elem_of_cons in Hd as [?|Hd]; [done|]. unfold if_rvalues in Hd. rewrite !elem_of_app in Hd.
        destruct Hd as [Hd|[Hd|[Hd|Hd]]].
        - destruct (fwd_args_member m d 0 Hd Hlen) as (_&_&_&Ht&_). unfold Forward.better. simpl. by rewrite Ht.
        - destruct (rvalues m); [apply elem_of_list_singleton in Hd as ->; done|by apply elem_of_nil in Hd].
        - apply elem_of_cons in Hd as [->|Hd%elem_of_list_singleton]; [done|]. by subst.
        - destruct (rvalues m); [|by apply elem_of_nil in Hd]. apply elem_of_cons in Hd as [->|Hd%elem_of_list_singleton]; [done|]. by subst. }
      simpl. apply insert_key. left. split; [done|]. destruct m; simpl in *; lia || done.
    - destruct (Hone e eq_refl) as (Hf&Hv&Hr&Hil). unfold Forward.construct. rewrite (select_other _ _ _ m A_ctor).
      + rewrite the_fwd_act, pass_the_fwd. rewrite insert_key.
        * simpl. by rewrite arrives_arrives.
        * right. exists (arrives m e). assert (e_ty (arrives m e) = e_ty e) as Ht by (unfold arrives; by destruct (rvalues m)). rewrite Ht. by split_and!.
      + done.
      + done.
      + right. apply elem_of_app. left. by apply the_fwd_in_args.
      + intros d Hd. split; [by apply ctors_sort|]. intros a c l ->. by apply ctors_fixed in Hd.
    - unfold Forward.construct. rewrite (select_several _ _ _ m A_ctor 0).
      + rewrite the_fwd_act, pass_the_fwd. rewrite insert_key by (left; by rewrite map_length). f_equal. rewrite map_map. apply map_ext. intros. apply arrives_arrives.
      + done.
      + right. apply elem_of_app. left. by apply the_fwd_in_args.
      + intros d Hd. by apply ctors_sort.
      + by right.
  Qed.

  (** *** From a value *)
  (** what looking up a value is, for each way of using the library *)
  Definition value_result (moved : bool) : result :=
    match pol with
    | PDefault => RKey [Expr value (negb moved) (negb moved)]
    | PVariant => RValue moved
    | PProduct => RIll
    end.
  Lemma insert_value_spec e : e_ty e = value → insert_value e = value_result (rvalues m && negb (e_const e) && negb (e_lv e)).
  Proof.
    intros He. set (mv := rvalues m && negb (e_const e) && negb (e_lv e)).
    assert (rvalues m = false → mv = false) as Hmv by (unfold mv; by intros ->).
    assert (select insert_values [e] = Some (fixed (AValue (negb mv) (negb mv)) value (negb mv) (negb mv))) as Hs.
    { apply select_two; [done|]. unfold mv. by rewrite <- andb_assoc. }
    unfold Forward.insert_value. rewrite Hs. simpl. unfold value_result, Forward.on. rewrite orb_diag.
    assert (pol = PDefault ∨ pol ≠ PDefault) as [Hp|Hp] by (destruct pol; auto).
    - rewrite rep_key by (right; eexists; split; [done|]; simpl; split_and!; done). rewrite Hp. simpl. do 2 f_equal. unfold arrives. destruct (rvalues m) eqn:Em; [done|]. by rewrite Hmv.
    - unfold Forward.make_rep. assert (select reps [Expr value (negb mv) (negb mv)] = Some (fixed (AValue (negb mv) (negb mv)) value (negb mv) (negb mv))) as ->.
      { pose proof (select_exact derives ucv is_il m (A_rep value) reps (Expr value (negb mv) (negb mv))) as Hse. 
        assert (arrives m (Expr value (negb mv) (negb mv)) = Expr value (negb mv) (negb mv)) as Har. { unfold arrives. destruct (rvalues m) eqn:Em; [done|]. by rewrite Hmv. }
        rewrite Har in Hse. simpl in Hse. assert (A_rep value (negb mv) (negb mv) = AValue (negb mv) (negb mv)) as Ha by (unfold A_rep; by rewrite decide_False). rewrite Ha in Hse. apply Hse; [done| |intros d Hd; by apply reps_sort].
        unfold Forward.reps, if_rvalues. apply elem_of_app. right. right. apply elem_of_app. right. unfold mv. destruct pol; [done| |]; (destruct (rvalues m), (negb (e_const e)), (negb (e_lv e)); simpl; (by left) || (by right; left)). }
      simpl. destruct pol; [done| |done]. by rewrite negb_involutive.
  Qed.
  Theorem C46_value e : e_ty e = value → construct [e] = value_result (rvalues m && negb (e_const e) && negb (e_lv e)).
  Proof.
    intros He. unfold Forward.construct. rewrite (select_other _ _ _ m A_ctor).
    - rewrite the_fwd_act, pass_the_fwd. simpl. unfold Forward.insert.
      pose proof (select_exact derives ucv is_il m A_val inserts (arrives m e)) as Hse. rewrite arrives_arrives in Hse.
      assert (e_ty (arrives m e) = value) as Ht by (unfold arrives; by destruct (rvalues m)). rewrite Ht in Hse. rewrite Hse; [|done| |intros d Hd; by apply inserts_sort].
      + simpl. rewrite insert_value_spec by done. f_equal. unfold Forward.on, arrives. simpl. destruct (rvalues m); [|done]. by destruct e as [t [] []].
      + unfold Forward.inserts, if_rvalues, A_val, arrives. apply elem_of_app. right. destruct (rvalues m), e as [t [] []]; simpl; set_solver.
    - by rewrite He.
    - done.
    - right. apply elem_of_app. left. by apply the_fwd_in_args.
    - intros d Hd. split; [by apply ctors_sort|]. intros a c l ->. apply ctors_fixed in Hd. congruence.
  Qed.

  (** *** From an initializer list *)
  Theorem C46_ilist e : rvalues m = true → is_il (e_ty e) = true → e_ty e ≠ rep → construct [e] = RKey [Expr (e_ty e) false true].
  Proof.
    intros Hm Hil Hr. assert (e_ty e ≠ fw) by congruence. assert (e_ty e ≠ value) by congruence. unfold Forward.construct. rewrite (select_ilist _ _ _ m A_ctor).
    - simpl. rewrite insert_key; [|by right; eexists]. unfold arrives. by rewrite Hm.
    - done.
    - done.
    - unfold Forward.ctors, if_rvalues. rewrite Hm. right. apply elem_of_app. right. by left.
    - intros d Hd. split; [by apply ctors_sort|]. intros a c l ->. by apply ctors_fixed in Hd.
  Qed.

  (** *** Assignment *)
  Lemma assigns_elem d : d ∈ assigns → d = Cand AIList true false false [PIList] ∨ d = fixed ACopy fw true true ∨ d = fixed (AValue true true) value true true ∨ (rvalues m = true ∧ d = fixed (AValue false false) value false false).
  Proof.
    unfold Forward.assigns, if_rvalues. rewrite !elem_of_app. intros [H|[H|H]].
    - destruct (rvalues m); [apply elem_of_list_singleton in H; auto|by apply elem_of_nil in H].
    - apply elem_of_cons in H as [H|H%elem_of_list_singleton]; auto.
    - destruct (rvalues m) eqn:Em; [apply elem_of_list_singleton in H; auto|by apply elem_of_nil in H].
  Qed.
  (** how an argument gets to a parameter of class [t] *)
  Definition way (e : expr) (t : nat) : option (rank * (bool * bool)) :=
    if decide (e_ty e = t) then Some (Exact, (e_const e, e_lv e))
    else if derives (e_ty e) t then Some (Base, (e_const e, e_lv e))
    else match ucv (e_ty e) t with Some x => Some (User, x) | None => None end.
  Lemma conv_way e t c l : conv derives ucv is_il (PFix t c l) e =
    match way e t with Some (r, (ec, el)) => if binds c l ec el then Some (Ics r t (Some (c, l))) else None | None => None end.
  Proof. unfold way. simpl. repeat case_match; by simplify_eq. Qed.
  Definition ahead (x y : option (rank * (bool * bool))) : Prop :=
    match x, y with Some _, None => True | Some (r, _), Some (r', _) => rank_lt r r' = true | None, _ => False end.
  Lemma rank_ahead i j : rank_lt (i_rank i) (i_rank j) = true → better_ics derives i j = true ∧ better_ics derives j i = false.
  Proof. destruct i as [[] ??], j as [[] ??]; simpl; done. Qed.

  Lemma assign_copy_select e : is_il (e_ty e) = false → ahead (way e fw) (way e value) → select assigns [e] = Some (fixed ACopy fw true true).
  Proof.
    intros Hil Ha. destruct (way e fw) as [[r [ec el]]|] eqn:Ew; [|done].
    assert (conv derives ucv is_il (PFix fw true true) e = Some (Ics r fw (Some (true, true)))) as Hx.
    { rewrite conv_way, Ew. by destruct ec, el. }
    apply select_intro.
    - unfold Forward.assigns. apply elem_of_app. right. by left.
    - by rewrite (viable_one _ _ _ _ _ (PFix fw true true)), Hx.
    - intros d Hd Hv Hne. apply assigns_elem in Hd.
      assert (d = Cand AIList true false false [PIList] ∨ ∃ c, d = fixed (AValue c c) value c c) as [->|[c ->]] by naive_solver.
      + apply viable_one_inv in Hv as (q&y&[= <-]&Hy). simpl in Hy. by rewrite Hil in Hy.
      + apply viable_one_inv in Hv as (q&y&[= <-]&Hy). rewrite (better_one _ _ _ (fixed ACopy fw true true) (fixed (AValue c c) value c c) _ _ _ _ _ eq_refl eq_refl Hx Hy).
        rewrite conv_way in Hy. destruct (way e value) as [[r' [ec' el']]|]; [|done]. destruct (binds _ _ _ _); [|done]. injection Hy as <-. simpl in Ha.
        destruct (rank_ahead (Ics r fw (Some (true, true))) (Ics r' value (Some (c, c))) Ha) as [-> ->]. done.
  Qed.
  Lemma assign_value_select e r ec el : let mv := rvalues m && (negb ec && negb el) in
    is_il (e_ty e) = false → way e value = Some (r, (ec, el)) → ahead (way e value) (way e fw) →
    select assigns [e] = Some (fixed (AValue (negb mv) (negb mv)) value (negb mv) (negb mv)).
  Proof.
    intros mv Hil Ew Ha. assert (conv derives ucv is_il (PFix value (negb mv) (negb mv)) e = Some (Ics r value (Some (negb mv, negb mv)))) as Hx.
    { rewrite conv_way, Ew. unfold mv. by destruct (rvalues m), ec, el. }
    apply select_intro.
    - unfold Forward.assigns, if_rvalues, mv. rewrite !elem_of_app. destruct (rvalues m), ec, el; simpl; set_solver.
    - rewrite (viable_one _ _ _ _ _ (PFix value (negb mv) (negb mv))) by done. rewrite Hx. by eexists.
    - intros d Hd Hv Hne. apply assigns_elem in Hd as [->|[->|Hd]].
      + apply viable_one_inv in Hv as (q&y&[= <-]&Hy). simpl in Hy. by rewrite Hil in Hy.
      + apply viable_one_inv in Hv as (q&y&[= <-]&Hy). rewrite (better_one _ _ _ (fixed (AValue (negb mv) (negb mv)) value (negb mv) (negb mv)) (fixed ACopy fw true true) _ _ _ _ _ eq_refl eq_refl Hx Hy).
        rewrite conv_way in Hy. rewrite Ew in Ha. destruct (way e fw) as [[r' [ec' el']]|]; [|done]. destruct (binds _ _ _ _); [|done]. injection Hy as <-. simpl in Ha.
        destruct (rank_ahead (Ics r value (Some (negb mv, negb mv))) (Ics r' fw (Some (true, true))) Ha) as [-> ->]. done.
      + assert (∃ c, d = fixed (AValue c c) value c c ∧ (rvalues m = false → c = true)) as (c&->&Hc) by (destruct Hd as [->|[? ->]]; eexists; split; done || congruence).
        apply viable_one_inv in Hv as (q&y&[= <-]&Hy). rewrite (better_one _ _ _ (fixed (AValue (negb mv) (negb mv)) value (negb mv) (negb mv)) (fixed (AValue c c) value c c) _ _ _ _ _ eq_refl eq_refl Hx Hy).
        rewrite conv_way, Ew in Hy. destruct (binds c c ec el) eqn:Hb; [|done]. injection Hy as <-.
        assert (c ≠ negb mv) as Hcm by (intros ->; by apply Hne). unfold Forward.better_ics. simpl. rewrite !decide_True by done. clear -Hc Hcm Hb. unfold mv in *.
        destruct (rvalues m); [|by rewrite Hc in Hcm]. destruct r, c, ec, el; done.
  Qed.

  (** From a flyweight, or an object of a class derived from it (and not from
      value_type): the handle is copied. *)
  Theorem C46_assign_copy e : e_ty e = fw ∨ derives (e_ty e) fw = true ∧ derives (e_ty e) value = false ∧ e_ty e ≠ value ∧ is_il (e_ty e) = false → assign e = RCopy.
  Proof.
    intros H. unfold Forward.assign. rewrite assign_copy_select; [done| |].
    - destruct H as [->|(_&_&_&?)]; done.
    - unfold way. destruct H as [H|(H1&H2&H3&_)].
      + rewrite decide_True, decide_False by congruence. repeat case_match; simplify_eq; done.
      + rewrite (decide_False (P := e_ty e = value)), H1, H2 by done. repeat case_match; simplify_eq; done.
  Qed.
  (** From a value: it is looked up, and moved from iff it is an rvalue that
      is not const. *)
  Theorem C46_assign_value e : e_ty e = value → assign e = value_result (rvalues m && negb (e_const e) && negb (e_lv e)).
  Proof.
    intros He. unfold Forward.assign. rewrite (assign_value_select e Exact (e_const e) (e_lv e)).
    - simpl. rewrite C46_value by done. f_equal. simpl. rewrite orb_diag, !negb_involutive, <- andb_assoc. by destruct (rvalues m), (negb (e_const e)), (negb (e_lv e)).
    - by rewrite He.
    - unfold way. by rewrite decide_True.
    - unfold way. rewrite decide_True, decide_False by congruence. repeat case_match; simplify_eq; done.
  Qed.
  (** From an object converted to value_type: the result of the conversion is
      looked up. *)
  Theorem C46_assign_converted e rc rl : e_ty e ≠ fw → e_ty e ≠ value → derives (e_ty e) fw = false → derives (e_ty e) value = false → is_il (e_ty e) = false →
    ucv (e_ty e) fw = None → ucv (e_ty e) value = Some (rc, rl) → assign e = value_result (rvalues m && negb rc && negb rl).
  Proof.
    intros H1 H2 H3 H4 Hil H5 H6. unfold Forward.assign. rewrite (assign_value_select e User rc rl).
    - simpl. rewrite C46_value by done. f_equal. simpl. rewrite orb_diag, !negb_involutive, <- andb_assoc. by destruct (rvalues m), (negb rc), (negb rl).
    - done.
    - unfold way. by rewrite decide_False, H4, H6.
    - unfold way. by rewrite !decide_False, H3, H4, H5, H6.
  Qed.
  (** From an initializer list *)
  Theorem C46_assign_ilist e : rvalues m = true → is_il (e_ty e) = true → e_ty e ≠ rep → assign e = RKey [Expr (e_ty e) false true].
  Proof.
    intros Hm Hil Hr. assert (e_ty e ≠ fw) by congruence. assert (e_ty e ≠ value) by congruence. unfold Forward.assign. rewrite (select_ilist _ _ _ m (λ _ _, ADefault)).
    - exact (C46_ilist (Expr (e_ty e) false true) Hm Hil Hr).
    - done.
    - done.
    - unfold Forward.assigns, if_rvalues. rewrite Hm. by left.
    - intros d Hd. split.
      + apply assigns_elem in Hd as [->|[->|[->|[_ ->]]]]; [do 3 right; by left|right; left; by eexists _, _, _, _..].
      + intros a c l ->. apply assigns_elem in Hd as [[=]|[[=]|[[=]|[_ [=]]]]]; congruence.
  Qed.
  (** From anything else: ill-formed. *)
  Theorem C46_assign_other e : e_ty e ≠ fw → e_ty e ≠ value → derives (e_ty e) fw = false → derives (e_ty e) value = false → is_il (e_ty e) = false →
    ucv (e_ty e) fw = None → ucv (e_ty e) value = None → assign e = RIll.
  Proof.
    intros H1 H2 H3 H4 Hil H5 H6. unfold Forward.assign. rewrite select_none; [done|]. intros d Hd. apply not_true_iff_false. intros (q&y&Hq&Hy)%viable_one_inv.
    apply assigns_elem in Hd as [->|[->|[->|[_ ->]]]]; injection Hq as <-; simpl in Hy; [by rewrite Hil in Hy|..];
      rewrite decide_False, ?H3, ?H4, ?H5, ?H6 in Hy by done; done.
  Qed.

  (** *** Implicit conversion *)
  (** Nothing but flyweights, classes convertible to them and initializer
      lists converts implicitly to a flyweight. *)
  Theorem C46_explicit e : e_ty e ≠ fw → derives (e_ty e) fw = false → ucv (e_ty e) fw = None → is_il (e_ty e) = false → implicit e = None.
  Proof.
    intros H1 H2 H3 Hil. unfold Forward.implicit. apply select_none. intros d Hd. apply elem_of_list_filter in Hd as [Hex Hd]. apply not_true_iff_false. intros Hv.
    destruct (ctors_sort (e_ty e) d Hd) as [Hf|[(a&t'&c&l&->&Ht)|[(c&l&->&Hr)|[->| ->]]]].
    - destruct (fwd_param derives ucv is_il m d e Hf Hv) as (q&y&Hq&Hy&Ht&Hqq). destruct m as [|k|k]; simpl in Hf.
      + apply elem_of_list_singleton in Hf as ->. done.
      + apply elem_of_cons in Hf as [->|(i&->&_)%elem_of_list_fmap]; done.
      + apply elem_of_cons in Hf as [->|Hf%elem_of_list_In]; [done|]. apply in_concat in Hf as (l&Hl1&Hl2). apply elem_of_list_In in Hl1, Hl2. apply elem_of_list_fmap in Hl1 as (i&->&_). apply elem_of_list_fmap in Hl2 as (ps&->&_). done.
    - pose proof (ctors_fixed _ _ _ _ Hd) as ->. apply viable_one_inv in Hv as (q&y&[= <-]&Hy). simpl in Hy. by rewrite decide_False, H2, H3 in Hy.
    - by apply ctors_fixed in Hd.
    - apply viable_one_inv in Hv as (q&y&[= <-]&Hy). simpl in Hy. by rewrite Hil in Hy.
    - by apply viable_spec in Hv as [? _].
  Qed.
  (** and a flyweight does, by copying the handle *)
  Theorem C46_implicit_copy e : e_ty e = fw → ∃ c, implicit e = Some c ∧ c_act c = ACopy.
  Proof.
    intros He. eexists. split; [|]. unfold Forward.implicit. apply (select_exact _ _ _ m A_ctor); [by rewrite He| |intros d [_ Hd]%elem_of_list_filter; by apply ctors_sort].
    - apply elem_of_list_filter. split; [done|]. rewrite He. unfold Forward.ctors, if_rvalues, A_ctor, arrives. destruct (rvalues m), e as [t [] []]; simpl; set_solver.
    - done.
  Qed.
End C46.

(** An object of a class derived from flyweight is not copied by the
    constructor: the forwarding constructor is a better match, and a key is
    constructed from it.  Class 3 derives from 0 = flyweight. *)
Definition der (a b : nat) : bool := bool_decide (a = 3 ∧ b = 0).
Theorem C46_derived_refuted : ∃ derives e, derives (e_ty e) 0 = true ∧
  construct derives (λ _ _, None) (λ _, false) Variadic 0 1 2 PDefault [e] = RKey [e] ∧
  assign derives (λ _ _, None) (λ _, false) Variadic 0 1 2 PDefault e = RCopy.
Proof. exists der, (Expr 3 true true). by vm_compute. Qed.

(** 0 flyweight, 1 value_type, 2 rep_type, 4 converts to value_type, 5 initializer list *)
Definition cv (a b : nat) : option (bool * bool) := if decide (a = 4 ∧ b = 1) then Some (false, false) else None.
Definition il (t : nat) : bool := bool_decide (t = 5).
Example C46_example :
  construct der cv il Variadic 0 1 2 PVariant [Expr 0 false true] = RCopy ∧
  construct der cv il (Cxx03 5) 0 1 2 PVariant [Expr 0 false false] = RCopy ∧
  construct der cv il Variadic 0 1 2 PVariant [Expr 1 false false] = RValue true ∧
  construct der cv il Variadic 0 1 2 PVariant [Expr 1 true false] = RValue false ∧
  construct der cv il (Rvalue 5) 0 1 2 PDefault [Expr 1 false true] = RKey [Expr 1 true true] ∧
  construct der cv il (Rvalue 5) 0 1 2 PProduct [Expr 1 false true] = RIll ∧
  construct der cv il Variadic 0 1 2 PProduct [Expr 4 false false] = RKey [Expr 4 false false] ∧
  construct der cv il Variadic 0 1 2 PDefault [Expr 5 false false] = RKey [Expr 5 false true] ∧
  construct der cv il Variadic 0 1 2 PDefault [] = RKey [] ∧
  assign der cv il Variadic 0 1 2 PVariant (Expr 4 false true) = RValue true ∧
  assign der cv il Variadic 0 1 2 PVariant (Expr 3 false true) = RCopy ∧
  assign der cv il Variadic 0 1 2 PVariant (Expr 6 false true) = RIll ∧
  implicit der cv il Variadic 0 (Expr 1 false true) = None.
Proof. vm_compute. split_and!; reflexivity. Qed.

Print Assumptions C45_forward.
Print Assumptions C45_forward_args.
Print Assumptions C45_unique.
Print Assumptions C45_beyond_limit.
Print Assumptions C45_category_refuted.
Print Assumptions C46_copy.
Print Assumptions C46_key.
Print Assumptions C46_value.
Print Assumptions C46_ilist.
Print Assumptions C46_assign_copy.
Print Assumptions C46_assign_value.
Print Assumptions C46_assign_converted.
Print Assumptions C46_assign_ilist.
Print Assumptions C46_assign_other.
Print Assumptions C46_explicit.
Print Assumptions C46_implicit_copy.
Print Assumptions C46_derived_refuted.
