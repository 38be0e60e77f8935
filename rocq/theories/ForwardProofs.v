(** Facts about overload resolution. *)
From Verif Require Export Forward.

Section lang.
  Context (derives : nat → nat → bool) (ucv : nat → nat → option (bool * bool)) (is_il : nat → bool).
  Notation conv := (conv derives ucv is_il).
  Notation viable := (viable derives ucv is_il).
  Notation better_ics := (better_ics derives).
  Notation arg_better := (arg_better derives ucv is_il).
  Notation better := (better derives ucv is_il).
  Notation wins := (wins derives ucv is_il).
  Notation select := (select derives ucv is_il).

  Lemma forallb_zip_swap {A} (f : A * A → bool) (l k : list A) : forallb f (zip l k) = forallb (λ p, f (p.2, p.1)) (zip k l).
  Proof. revert k. induction l as [|x l IH]; intros [|y k]; simpl; try done. by rewrite IH. Qed.
  Lemma better_asym c d args : better c d args = true → better d c args = false.
  Proof.
    unfold Forward.better. rewrite andb_true_iff, forallb_forall. intros [H1 H2]. apply not_true_iff_false. rewrite andb_true_iff, forallb_forall. intros [H3 H4].
    assert (∀ a b, (∀ i, i ∈ seq 0 (length args) → negb (arg_better a b args i) = true) → existsb (arg_better a b args) (seq 0 (length args)) = false) as Hno.
    { intros a b H. apply not_true_iff_false. rewrite existsb_exists. intros (i&Hi&Hb). rewrite <- elem_of_list_In in Hi. specialize (H i Hi). by rewrite Hb in H. }
    rewrite (Hno c d) in H2 by (intros i Hi; apply H3; by apply elem_of_list_In). rewrite (Hno d c) in H4 by (intros i Hi; apply H1; by apply elem_of_list_In).
    simpl in *. unfold more_special in *. rewrite (forallb_zip_swap _ (params d _)) in H4. rewrite (forallb_zip_swap (λ p, at_least p.2 p.1) (params d _)) in H4. simpl in *.
    destruct (c_tmpl c), (c_tmpl d); simpl in *; try done.
    apply andb_true_iff in H2 as [H2 H2'], H4 as [H4 H4']. apply negb_true_iff in H2'. rewrite H4 in H2'. done.
  Qed.

  Lemma select_intro cs args c : c ∈ cs → viable args c = true → (∀ d, d ∈ cs → viable args d = true → d ≠ c → better c d args = true) → select cs args = Some c.
  Proof.
    intros Hc Hv Hb. assert (wins cs args c = true) as Hw.
    { unfold Forward.wins. rewrite Hv. simpl. apply forallb_forall. intros d Hd%elem_of_list_In. destruct (decide (d = c)) as [->|Hne]; [by rewrite bool_decide_true|].
      destruct (viable args d) eqn:E; simpl; [|by rewrite orb_true_r]. rewrite (Hb d Hd E Hne). by rewrite orb_true_r. }
    unfold Forward.select. destruct (filter (λ c, wins cs args c = true) cs) as [|d l] eqn:E.
    - assert (c ∈ filter (λ c, wins cs args c = true) cs) as H by (by apply elem_of_list_filter). rewrite E in H. by apply elem_of_nil in H.
    - simpl. f_equal. assert (d ∈ filter (λ c, wins cs args c = true) cs) as H by (rewrite E; by left). apply elem_of_list_filter in H as [Hd Hin].
      destruct (decide (d = c)) as [|Hne]; [done|]. exfalso. unfold Forward.wins in Hd. apply andb_true_iff in Hd as [Hvd Hd]. rewrite forallb_forall in Hd.
      specialize (Hd c). rewrite <- elem_of_list_In in Hd. specialize (Hd Hc). rewrite bool_decide_false, Hv in Hd by done. simpl in Hd.
      apply better_asym in Hd. rewrite Hb in Hd; done.
  Qed.
  Lemma select_sound cs args c : select cs args = Some c → c ∈ cs ∧ viable args c = true ∧ ∀ d, d ∈ cs → viable args d = true → d ≠ c → better c d args = true.
  Proof.
    unfold Forward.select. intros H. assert (c ∈ filter (λ c, wins cs args c = true) cs) as Hin.
    { destruct (filter (λ c, wins cs args c = true) cs) as [|d l]; [done|]. simpl in H. simplify_eq. by left. }
    apply elem_of_list_filter in Hin as [Hw Hin]. unfold Forward.wins in Hw. apply andb_true_iff in Hw as [Hv Hw]. split_and!; [done|done|]. rewrite forallb_forall in Hw.
    intros d Hd Hvd Hne. specialize (Hw d). rewrite <- elem_of_list_In in Hw. specialize (Hw Hd). rewrite bool_decide_false, Hvd in Hw by done. done.
  Qed.
  Lemma select_none cs args : (∀ d, d ∈ cs → viable args d = false) → select cs args = None.
  Proof. intros H. destruct (select cs args) as [c|] eqn:E; [|done]. apply select_sound in E as (Hc&Hv&_). by rewrite H in Hv. Qed.

  Lemma viable_spec args c : viable args c = true ↔ length (params c (length args)) = length args ∧
    ∀ i p e, params c (length args) !! i = Some p → args !! i = Some e → is_Some (conv p e).
  Proof.
    unfold Forward.viable. rewrite andb_true_iff, bool_decide_eq_true, forallb_forall. apply and_iff_compat_l. split.
    - intros H i p e Hp He. specialize (H (p, e)). rewrite <- elem_of_list_In in H. simpl in H. destruct (conv p e); [done|]. discriminate H.
      apply elem_of_list_lookup. exists i. apply lookup_zip_with_Some. by exists p, e.
    - intros H [p e] Hin%elem_of_list_In. apply elem_of_list_lookup in Hin as [i Hi]. apply lookup_zip_with_Some in Hi as (p'&e'&Heq&Hp&He). injection Heq as -> ->. simpl.
      destruct (H i p' e' Hp He) as [? ->]. done.
  Qed.
  Lemma viable_one e c p : params c 1 = [p] → viable [e] c = true ↔ is_Some (conv p e).
  Proof.
    intros Hp. rewrite viable_spec. simpl. rewrite Hp. simpl. split; [intros [_ H]; by apply (H 0)|]. intros H. split; [done|]. intros [|i] p' e' ??; by simplify_eq/=.
  Qed.
  Lemma viable_one_inv e c : viable [e] c = true → ∃ p x, params c 1 = [p] ∧ conv p e = Some x.
  Proof.
    intros [Hl H]%viable_spec. simpl in *. destruct (params c 1) as [|p [|]] eqn:E; simpl in Hl; try done. destruct (H 0 p e eq_refl eq_refl) as [x Hx]. by exists p, x.
  Qed.
  Lemma better_one c d e p q x y : params c 1 = [p] → params d 1 = [q] → conv p e = Some x → conv q e = Some y →
    better c d [e] = negb (better_ics y x) && (better_ics x y || negb (c_tmpl c) && c_tmpl d || c_tmpl c && c_tmpl d && (at_least p q && negb (at_least q p))).
  Proof.
    intros Hc Hd Hx Hy. unfold Forward.better, Forward.arg_better, more_special. simpl. rewrite Hc, Hd. simpl. rewrite Hx, Hy. by rewrite !andb_true_r, orb_false_r.
  Qed.
End lang.

(** ** The forwarding overloads *)
Lemma masks_spec n ps : ps ∈ masks n ↔ length ps = n ∧ Forall (λ p, p = PRef ∨ p = PCRef) ps.
Proof.
  revert ps. induction n as [|n IH]; intros ps; simpl.
  - rewrite elem_of_list_singleton. split; [intros ->; split; [done|constructor]|]. by intros [?%nil_length_inv _].
  - rewrite elem_of_app, !elem_of_list_fmap. split.
    + intros [(l&->&[Hl Hf]%IH)|(l&->&[Hl Hf]%IH)]; (split; [simpl; by rewrite Hl|constructor; auto]).
    + intros [Hl Hf]. destruct ps as [|p ps]; [done|]. apply Forall_cons in Hf as [Hp Hf]. injection Hl as Hl. destruct Hp as [->| ->]; [left|right]; (exists ps; split; [done|]; by apply IH).
Qed.
(** what an argument looks like to the callee *)
Definition arrives (m : mode) (e : expr) : expr := if rvalues m then e else Expr (e_ty e) (e_const e || negb (e_lv e)) true.
Definition pick (m : mode) (e : expr) : param := if rvalues m then PFwd else if e_lv e && negb (e_const e) then PRef else PCRef.
Definition the_fwd (m : mode) (args : list expr) : cand :=
  match m with
  | Variadic => Cand AForward true true true []
  | _ => match args with [] => Cand AForward false false false [] | _ => tmpl (map (pick m) args) end
  end.

Lemma pick_rvalues m args : rvalues m = true → map (pick m) args = replicate (length args) PFwd.
Proof. intros H. induction args as [|e args IH]; simpl; [done|]. rewrite IH. unfold pick. by rewrite H. Qed.
Lemma the_fwd_act m args : c_act (the_fwd m args) = AForward.
Proof. by destruct m, args. Qed.
Lemma the_fwd_params m args : params (the_fwd m args) (length args) = map (pick m) args.
Proof. destruct m; [by rewrite pick_rvalues|by destruct args|by destruct args]. Qed.
Lemma the_fwd_tmpl m args : args ≠ [] → c_tmpl (the_fwd m args) = true.
Proof. by destruct m, args. Qed.
Lemma the_fwd_in_args m args : args ≠ [] → limit m (length args) → the_fwd m args ∈ fwd_with_args m.
Proof.
  intros Hne Hl. destruct m as [|k|k]; simpl in *; [by left| |].
  - apply elem_of_list_fmap. exists (length args). split; [|apply elem_of_seq; destruct args; [done|simpl in *; lia]]. destruct args as [|e args]; [done|]. by rewrite (pick_rvalues (Rvalue k)).
  - apply elem_of_list_In, in_concat. exists (map tmpl (masks (length args))). rewrite <- !elem_of_list_In. split.
    + apply elem_of_list_fmap. exists (length args). split; [done|]. apply elem_of_seq. destruct args; [done|simpl in *; lia].
    + destruct args as [|e args]; [done|]. apply elem_of_list_fmap. eexists. split; [done|]. apply masks_spec. split; [by rewrite map_length|].
      apply Forall_fmap, Forall_forall. intros e' _. unfold pick. simpl. destruct (e_lv e' && negb (e_const e')); auto.
Qed.
Lemma the_fwd_in m args : limit m (length args) → the_fwd m args ∈ fwd m.
Proof.
  intros Hl. destruct args as [|e args].
  - destruct m; simpl; left.
  - destruct m; try (right; by apply the_fwd_in_args); by apply (the_fwd_in_args Variadic).
Qed.
(** candidates that take [n] arguments *)
Lemma fwd_args_member m d n : d ∈ fwd_with_args m → length (params d n) = n → (m = Variadic ∨ n ≠ 0) ∧ limit m n ∧ c_act d = AForward ∧ c_tmpl d = true ∧
  length (params d n) = n ∧ (if rvalues m then params d n = replicate n PFwd ∧ d = the_fwd m (replicate n (Expr 0 false false)) else Forall (λ p, p = PRef ∨ p = PCRef) (params d n) ∧ d = tmpl (params d n)).
Proof.
  destruct m as [|k|k]; simpl.
  - intros ->%elem_of_list_singleton _. unfold params. simpl. rewrite replicate_length. split_and!; try done. by left.
  - intros (i&->&Hi)%elem_of_list_fmap Hl. apply elem_of_seq in Hi. unfold params in Hl. simpl in Hl. rewrite replicate_length in Hl. subst i. split_and!; try done; [right; lia|lia|unfold params; simpl; by rewrite replicate_length|].
    destruct n as [|n]; [lia|]. simpl. unfold tmpl. do 2 f_equal. rewrite (pick_rvalues (Rvalue k)), replicate_length by done. done.
  - intros Hin%elem_of_list_In Hl. apply in_concat in Hin as (l&Hl1&Hl2). apply elem_of_list_In in Hl1, Hl2. apply elem_of_list_fmap in Hl1 as (i&->&Hi). apply elem_of_seq in Hi. apply elem_of_list_fmap in Hl2 as (ps&->&Hps).
    apply masks_spec in Hps as [Hlen Hf]. unfold params in Hl. simpl in Hl. subst. split_and!; try done; [right; lia|lia].
Qed.
Lemma fwd_member m d n : d ∈ fwd m → length (params d n) = n → n ≠ 0 → d ∈ fwd_with_args m.
Proof. destruct m; simpl; [done| |]; rewrite elem_of_cons; (intros [->|H] Hl Hn; [simpl in Hl; lia|done]). Qed.
Lemma pass_the_fwd m args : pass (the_fwd m args) args = map (arrives m) args.
Proof.
  unfold pass. rewrite the_fwd_params. induction args as [|e args IH]; simpl; [done|]. f_equal; [|exact IH]. unfold pick, arrives, passed. destruct e as [t [] []], (rvalues m); done.
Qed.

Section sets.
  Context (derives : nat → nat → bool) (ucv : nat → nat → option (bool * bool)) (is_il : nat → bool) (m : mode).
  Notation conv := (conv derives ucv is_il).
  Notation viable := (viable derives ucv is_il).
  Notation better_ics := (better_ics derives).
  Notation better := (better derives ucv is_il).
  Notation select := (select derives ucv is_il).

  Lemma conv_pick e : conv (pick m e) e = Some (Ics Exact (e_ty e) (Some (e_const (arrives m e), e_lv (arrives m e)))).
  Proof. unfold pick, arrives. destruct (rvalues m); [done|]. destruct e as [t [] []]; done. Qed.
  Lemma the_fwd_viable args : viable args (the_fwd m args) = true.
  Proof.
    apply viable_spec. rewrite the_fwd_params, map_length. split; [done|]. intros i p e Hp He. rewrite list_lookup_fmap, He in Hp. simpl in Hp. simplify_eq. rewrite conv_pick. by eexists.
  Qed.

  (** among the forwarding overloads *)
  Lemma fwd_best args d : d ∈ fwd_with_args m → viable args d = true → d ≠ the_fwd m args → better (the_fwd m args) d args = true.
  Proof.
    intros Hd Hv Hne. apply viable_spec in Hv as [Hl Hconv]. destruct (fwd_args_member m d (length args) Hd Hl) as (Hn&Hlim&_&Ht&_&Hshape).
    assert (args ≠ []) as Hargs. { intros ->. destruct Hn as [->|?]; [|done]. simpl in Hd. apply elem_of_list_singleton in Hd. by subst. }
    destruct (rvalues m) eqn:Em.
    { exfalso. destruct Hshape as [_ ->]. apply Hne. destruct m as [|k|k]; [done| |done]. destruct args as [|e args]; [done|]. simpl. unfold tmpl. do 2 f_equal.
      rewrite !(pick_rvalues (Rvalue k)), replicate_length by done. done. }
    destruct Hshape as [Hf Hdt]. set (w := the_fwd m args). assert (params w (length args) = map (pick m) args) as Hw by apply the_fwd_params.
    assert (Hidx : ∀ i e, args !! i = Some e → ∃ q, params d (length args) !! i = Some q ∧ (q = PRef ∨ q = PCRef)).
    { intros i e He. apply lookup_lt_Some in He. rewrite <- Hl in He. apply lookup_lt_is_Some in He as [q Hq]. exists q. split; [done|]. exact (Forall_lookup_1 _ _ _ _ Hf Hq). }
    unfold Forward.better. apply andb_true_iff. split.
    - apply forallb_forall. intros i _. unfold arg_better. rewrite Hw, list_lookup_fmap. destruct (args !! i) as [e|] eqn:He; [|by destruct (params d (length args) !! i)]. simpl.
      destruct (Hidx i e He) as (q&Hq&Hqq). rewrite Hq. destruct (Hconv i q e Hq He) as [y Hy]. rewrite Hy, conv_pick. unfold arrives. rewrite Em.
      destruct Hqq as [->| ->]; simpl in Hy; destruct e as [t [] []]; simpl in Hy; simplify_eq; unfold Forward.better_ics; simpl; by rewrite decide_True.
    - rewrite !orb_true_iff. destruct (decide (existsb (arg_better derives ucv is_il w d args) (seq 0 (length args)) = true)) as [|Hno]; [by left; left|]. right.
      unfold w. rewrite the_fwd_tmpl, Ht by done. simpl. 
      assert (∀ i e q, args !! i = Some e → params d (length args) !! i = Some q → q = PRef ∨ pick m e = PCRef) as Hlow.
      { intros i e q He Hq. destruct (Hidx i e He) as (q'&Hq'&[->| ->]); simplify_eq; [by left|]. right. destruct (e_lv e && negb (e_const e)) eqn:Elv; [|unfold pick; by rewrite Em, Elv].
        destruct e as [t [] []]; try done. exfalso. apply Hno, existsb_exists. exists i. split; [apply elem_of_list_In, elem_of_seq; apply lookup_lt_Some in He; lia|].
        unfold arg_better. rewrite Hw, list_lookup_fmap, Hq, He. simpl. rewrite conv_pick. unfold arrives. rewrite Em. unfold Forward.better_ics. simpl. by rewrite decide_True. }
      unfold more_special. fold w. rewrite Hw. apply andb_true_iff. split.
      + apply forallb_forall. intros [p q] Hin%elem_of_list_In. apply elem_of_list_lookup in Hin as [i Hi]. apply lookup_zip_with_Some in Hi as (p'&q'&Heq&Hp&Hq). injection Heq as -> ->. rename p' into p, q' into q. simpl.
        rewrite list_lookup_fmap in Hp. destruct (args !! i) as [e|] eqn:He; [|done]. simpl in Hp. injection Hp as <-. destruct (Hidx i e He) as (q1&Hq1&Hqq). rewrite Hq in Hq1. injection Hq1 as <-.
        destruct (Hlow i e q He Hq) as [->| ->]; [|by destruct Hqq as [->| ->]]. unfold pick. rewrite Em. by destruct (e_lv e && negb (e_const e)).
      + apply negb_true_iff, not_true_iff_false. rewrite forallb_forall. intros Hall. apply Hne. destruct m as [| |k]; [done|done|]. destruct args as [|e0 args0] eqn:Eargs; [done|]. rewrite <- Eargs in *.
        assert (params d (length args) = map (pick (Cxx03 k)) args) as Heq.
        { apply list_eq. intros i. rewrite list_lookup_fmap. destruct (args !! i) as [e|] eqn:He; simpl.
          - destruct (Hidx i e He) as (q&Hq&Hqq). rewrite Hq. f_equal. specialize (Hall (pick (Cxx03 k) e, q)). rewrite <- elem_of_list_In in Hall.
            assert (at_least q (pick (Cxx03 k) e) = true) as Hal. { apply Hall. apply elem_of_list_lookup. exists i. apply lookup_zip_with_Some. eexists _, _. split_and!; [done| |done]. by rewrite list_lookup_fmap, He. }
            destruct (Hlow i e q He Hq) as [->|Hp].
            + unfold pick in *. simpl in *. destruct (e_lv e && negb (e_const e)); done.
            + rewrite Hp in *. destruct Hqq as [->| ->]; done.
          - apply lookup_ge_None. apply lookup_ge_None in He. lia. }
        rewrite Hdt, Heq. rewrite Eargs. done.
  Qed.
End sets.

(** ** Mixed overload sets *)
Section mixed.
  Context (derives : nat → nat → bool) (ucv : nat → nat → option (bool * bool)) (is_il : nat → bool) (m : mode).
  Notation conv := (conv derives ucv is_il).
  Notation viable := (viable derives ucv is_il).
  Notation better_ics := (better_ics derives).
  Notation better := (better derives ucv is_il).
  Notation select := (select derives ucv is_il).

  Lemma fwd_best' args d : d ∈ fwd m → viable args d = true → d ≠ the_fwd m args → better (the_fwd m args) d args = true.
  Proof.
    intros Hd Hv Hne. destruct args as [|e args].
    - destruct m as [|k|k]; simpl in Hd; [by apply fwd_best| |]; (apply elem_of_cons in Hd as [->|Hd]; [done|by apply (fwd_best _ _ _ _ [])]).
    - apply fwd_best; try done. eapply fwd_member; [done|by apply viable_spec in Hv as [? _]|done].
  Qed.
  Lemma select_fwd args : limit m (length args) → select (fwd m) args = Some (the_fwd m args).
  Proof. intros Hl. apply select_intro; [by apply the_fwd_in|apply the_fwd_viable|intros d ???; by apply fwd_best']. Qed.
  Lemma select_fwd_args args : args ≠ [] → limit m (length args) → select (fwd_with_args m) args = Some (the_fwd m args).
  Proof. intros Hn Hl. apply select_intro; [by apply the_fwd_in_args|apply the_fwd_viable|intros d ???; by apply fwd_best]. Qed.

  (** what a candidate taking one argument of class [t] may be *)
  Definition sort (A : bool → bool → action) (t : nat) (d : cand) : Prop :=
    d ∈ fwd m ∨ (∃ a t' c l, d = fixed a t' c l ∧ t' ≠ t) ∨ (∃ c l, d = fixed (A c l) t c l ∧ (rvalues m = false → l = true)) ∨
    (d = Cand AIList true false false [PIList]) ∨ (d = Cand ADefault false false false []).

  Lemma conv_fixed_other t t' c l e y : e_ty e = t → t' ≠ t → conv (PFix t' c l) e = Some y → i_rank y ≠ Exact.
  Proof. intros Ht Hne. simpl. rewrite decide_False by congruence. intros H. repeat case_match; simplify_eq; done. Qed.
  Lemma exact_beats x y : i_rank x = Exact → i_rank y ≠ Exact → better_ics x y = true ∧ better_ics y x = false.
  Proof. destruct x as [[] ??], y as [[] ??]; simpl; done. Qed.

  Lemma fwd_param d e : d ∈ fwd m → viable [e] d = true → ∃ q y, params d 1 = [q] ∧ conv q e = Some y ∧ c_tmpl d = true ∧ (if rvalues m then q = PFwd else q = PRef ∨ q = PCRef).
  Proof.
    intros Hd Hv. pose proof Hv as [Hl _]%viable_spec. simpl in Hl. apply viable_one_inv in Hv as (q&y&Hq&Hy). exists q, y.
    destruct (fwd_args_member m d 1) as (_&_&_&Ht&_&Hs); [by eapply fwd_member|done|]. rewrite Hq in Hs. split_and!; try done. destruct (rvalues m); [by destruct Hs as [[=] _]|].
    destruct Hs as [Hf _]. by apply Forall_cons in Hf as [? _].
  Qed.

  Lemma select_exact A cs e : let w := fixed (A (e_const (arrives m e)) (e_lv (arrives m e))) (e_ty e) (e_const (arrives m e)) (e_lv (arrives m e)) in
    is_il (e_ty e) = false → w ∈ cs → (∀ d, d ∈ cs → sort A (e_ty e) d) → select cs [e] = Some w.
  Proof.
    intros w Hil Hw Hcs. set (x := Ics Exact (e_ty e) (Some (e_const (arrives m e), e_lv (arrives m e)))).
    assert (conv (PFix (e_ty e) (e_const (arrives m e)) (e_lv (arrives m e))) e = Some x) as Hx.
    { simpl. rewrite decide_True by done. unfold arrives, x, arrives. destruct (rvalues m), e as [t [] []]; done. }
    apply select_intro; [done|apply (viable_one _ _ _ _ _ (PFix (e_ty e) (e_const (arrives m e)) (e_lv (arrives m e)))); [done|by rewrite Hx]|].
    intros d Hd Hv Hne. destruct (Hcs d Hd) as [Hf|[(a&t'&c&l&->&Ht)|[(c&l&->&Hr)|[->| ->]]]].
    - destruct (fwd_param d e Hf Hv) as (q&y&Hq&Hy&Ht&Hqq). rewrite (better_one _ _ _ w d e _ q x y) by done. rewrite Ht. simpl. rewrite orb_true_r, orb_true_l, andb_true_r.
      unfold x, arrives in *. destruct (rvalues m); [subst q|destruct Hqq as [->| ->]]; simpl in Hy; destruct e as [t [] []]; simpl in Hy; simplify_eq; unfold Forward.better_ics; simpl; by rewrite decide_True.
    - apply viable_one_inv in Hv as (q&y&[= <-]&Hy). rewrite (better_one _ _ _ w _ e _ _ x y) by done. destruct (exact_beats x y) as [-> ->]; [done|by eapply conv_fixed_other|]. done.
    - apply viable_one_inv in Hv as (q&y&[= <-]&Hy). rewrite (better_one _ _ _ w _ e _ _ x y) by done. simpl in Hy. rewrite decide_True in Hy by done. destruct (binds _ _ _ _) eqn:Hb; [|done]. injection Hy as <-.
      assert ((c, l) ≠ (e_const (arrives m e), e_lv (arrives m e))) as Hcl by (intros [= -> ->]; by apply Hne).
      unfold x, Forward.better_ics. simpl. rewrite !decide_True by done. clear -Hb Hcl Hr. unfold arrives in *. destruct (rvalues m).
      + destruct e as [t [] []], c, l; simpl in *; done.
      + rewrite Hr in * by done. destruct e as [t [] []], c; simpl in *; done.
    - apply viable_one_inv in Hv as (q&y&[= <-]&Hy). simpl in Hy. by rewrite Hil in Hy.
    - apply viable_spec in Hv as [? _]. done.
  Qed.
  Lemma select_other A cs e : (Cand AIList true false false [PIList] ∈ cs → is_il (e_ty e) = false) → limit m 1 → the_fwd m [e] ∈ cs → (∀ d, d ∈ cs → sort A (e_ty e) d ∧ ∀ a c l, d ≠ fixed a (e_ty e) c l) →
    select cs [e] = Some (the_fwd m [e]).
  Proof.
    intros Hil Hl Hw Hcs. apply select_intro; [done|apply the_fwd_viable|]. intros d Hd Hv Hne. destruct (Hcs d Hd) as [[Hf|[(a&t'&c&l&->&Ht)|[(c&l&->&Hr)|[->| ->]]]] Hno].
    - by apply fwd_best'.
    - apply viable_one_inv in Hv as (q&y&[= <-]&Hy). pose proof (the_fwd_params m [e]) as Hp. simpl in Hp. rewrite (better_one _ _ _ _ (fixed a t' c l) e _ (PFix t' c l) _ y Hp eq_refl (conv_pick _ _ _ m e) Hy).
      destruct (exact_beats (Ics Exact (e_ty e) (Some (e_const (arrives m e), e_lv (arrives m e)))) y) as [-> ->]; [done|by eapply conv_fixed_other|]. done.
    - by destruct (Hno (A c l) c l).
    - apply viable_one_inv in Hv as (q&y&[= <-]&Hy). simpl in Hy. by rewrite (Hil Hd) in Hy.
    - apply viable_spec in Hv as [? _]. done.
  Qed.
  Lemma select_ilist A cs e : rvalues m = true → is_il (e_ty e) = true → Cand AIList true false false [PIList] ∈ cs → (∀ d, d ∈ cs → sort A (e_ty e) d ∧ ∀ a c l, d ≠ fixed a (e_ty e) c l) →
    select cs [e] = Some (Cand AIList true false false [PIList]).
  Proof.
    intros Hm Hil Hw Hcs. assert (conv PIList e = Some (Ics Exact (e_ty e) None)) as Hx by (simpl; by rewrite Hil).
    apply select_intro; [done|apply (viable_one _ _ _ _ _ PIList); [done|by rewrite Hx]|]. intros d Hd Hv Hne. destruct (Hcs d Hd) as [[Hf|[(a&t'&c&l&->&Ht)|[(c&l&->&Hr)|[->| ->]]]] Hno].
    - destruct (fwd_param d e Hf Hv) as (q&y&Hq&Hy&Ht&Hqq). rewrite Hm in Hqq. subst q. rewrite (better_one _ _ _ (Cand AIList true false false [PIList]) d e PIList PFwd _ y eq_refl Hq Hx Hy). simpl in Hy. simplify_eq.
      unfold Forward.better_ics. simpl. rewrite decide_True by done. rewrite Ht. done.
    - apply viable_one_inv in Hv as (q&y&[= <-]&Hy). rewrite (better_one _ _ _ (Cand AIList true false false [PIList]) (fixed a t' c l) e PIList (PFix t' c l) _ y eq_refl eq_refl Hx Hy).
      destruct (exact_beats (Ics Exact (e_ty e) None) y) as [-> ->]; [done|by eapply conv_fixed_other|]. done.
    - by destruct (Hno (A c l) c l).
    - done.
    - apply viable_spec in Hv as [? _]. done.
  Qed.
  (** no or several arguments *)
  Lemma select_several A t cs args : length args ≠ 1 → the_fwd m args ∈ cs → (∀ d, d ∈ cs → sort A t d) → Cand ADefault false false false [] ∉ cs ∨ args ≠ [] →
    select cs args = Some (the_fwd m args).
  Proof.
    intros Hn Hw Hcs Hdef. apply select_intro; [done|apply the_fwd_viable|]. intros d Hd Hv Hne. pose proof Hv as [Hl _]%viable_spec.
    destruct (Hcs d Hd) as [Hf|[(a&t'&c&l&->&Ht)|[(c&l&->&Hr)|[->| ->]]]]; try (unfold params in Hl; simpl in Hl; lia).
    - by apply fwd_best'.
    - unfold params in Hl. simpl in Hl. destruct Hdef as [?|?]; [done|]. by destruct args.
  Qed.
End mixed.
