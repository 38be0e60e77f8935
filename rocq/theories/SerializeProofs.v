(** Invariants of the save and load machines. *)
From Verif Require Export SerializeSpec CoreOps.

Section CoreFacts.
  Context {K A R V : Type}.
  Context (P : policy K A R V) (FS : factory K) (cfg : config).
  Context (eqv : K → K → bool) (good : R → Prop).
  Context (Heq : equivalence eqv) (HP : policy_ok eqv good P) (HF : factory_spec eqv FS).
  Context (t0 : tid).

  Notation state := (state (R:=R) (K:=K) (A:=A) FS).
  Notation label := (label (A:=A)).
  Notation Inv := (Inv P FS cfg eqv good HF t0).
  Notation allowed := (allowed cfg t0).
  Notation step := (step P FS cfg).
  Notation run := (run P FS cfg).
  Notation reachable := (reachable P FS cfg t0).
  Notation mkof := (mkof P).
  Implicit Types (s : state) (l : label).

  Lemma writes_touches x l : writes x l = false → touches x l = false.
  Proof. destruct l as [t []|]; simpl; done. Qed.

  Lemma keep_value s l s' z v : reachable s → allowed (label_tid l) → step s l = Next s' →
    writes z l = false → value_of s z = Some v → value_of s' z = Some v.
  Proof.
    intros Hr Hal Hs Hw Hv. destruct v as [h r].
    eapply (stability P FS cfg eqv good Heq HP HF t0 s [l]); [done| | |by cbn [Core.run]; rewrite Hs|done].
    - intros El. constructor; [by apply Hal|done].
    - constructor; [by apply writes_touches|done].
  Qed.

  Lemma keep_key s l s' z k : reachable s → allowed (label_tid l) → step s l = Next s' →
    writes z l = false → key_of P FS s z = Some k → key_of P FS s' z = Some k.
  Proof.
    intros Hr Hal Hs Hw. unfold key_of. destruct (value_of s z) as [v|] eqn:E; [|done].
    by rewrite (keep_value _ _ _ _ _ Hr Hal Hs Hw E).
  Qed.

  Lemma keep_live s l s' z h : reachable s → allowed (label_tid l) → step s l = Next s' →
    writes z l = false → live s z = Some h → live s' z = Some h.
  Proof.
    intros Hr Hal Hs Hw Hl%live_vars.
    destruct (no_dangling P FS cfg eqv good Heq HP HF t0 _ _ _ Hr Hl) as (r&Hv&_).
    apply (keep_value _ _ _ _ _ Hr Hal Hs Hw) in Hv. unfold live. unfold value_of in Hv.
    repeat case_match; by simplify_eq.
  Qed.

  Lemma keep_none s l s' z : reachable s → allowed (label_tid l) → step s l = Next s' →
    writes z l = false → vars s !! z = None → vars s' !! z = None.
  Proof.
    intros Hr Hal Hs Hw Hn. pose proof (reach_inv P FS cfg eqv good Heq HP HF t0 s Hr) as HI.
    destruct (eff_step P FS cfg eqv good Heq HP HF t0 _ _ _ HI Hal Hs)
      as [oe _ _ Hv _| | | ]; [|congruence..].
    remember (vars s') as vs'. clear Heqvs'.
    destruct Hv; subst; simpl in Hw; repeat apply orb_false_iff in Hw as [? Hw];
      repeat match goal with H : bool_decide _ = false |- _ => apply bool_decide_eq_false in H end;
      rewrite ?lookup_insert_ne, ?lookup_delete_ne by congruence; try done.
  Qed.

  Lemma copy_handle_stacks s h s' : copy_handle FS cfg s h = Some s' → stacks s' = stacks s.
  Proof. unfold copy_handle. intros; repeat case_match; by simplify_eq. Qed.
  Lemma copy_handles_stacks hs : ∀ s s', copy_handles FS cfg s hs = Some s' → stacks s' = stacks s.
  Proof.
    induction hs as [|h hs IH]; simpl; intros s s'; [by intros [= ->]|].
    destruct (copy_handle FS cfg s h) as [s1|] eqn:E; [|done].
    intros ->%IH. by eapply copy_handle_stacks.
  Qed.

  Lemma step_other s l s' t : step s l = Next s' → t ≠ label_tid l → stack s' t = stack s t.
  Proof.
    destruct l as [t' o|t' c]; cbn [Core.step label_tid].
    2: { intros. by eapply (other_stack P FS cfg s t' c). }
    intros Hs Hne. destruct (stack s t'); [|done].
    destruct o as [x p ys|x y|x y|x y|x|x|x y path]; simpl in Hs; repeat case_match; simplify_eq;
      repeat match goal with
      | H : copy_handles _ _ _ _ = Some _ |- _ => apply copy_handles_stacks in H
      | H : copy_handle _ _ _ _ = Some _ |- _ => apply copy_handle_stacks in H
      end; unfold stack; simpl; rewrite ?lookup_insert_ne by done; congruence.
  Qed.

  Lemma key_of_replay s x k k' : reachable s → replay (log s) !! x = Some k → key_of P FS s x = Some k' →
    eqv k' k = true.
  Proof.
    intros Hr Hk Hk'. pose proof (transparency P FS cfg eqv good Heq HP HF t0 s x Hr) as H.
    unfold key_of in Hk'. destruct (value_of s x) as [[h r]|]; [|done]. simplify_eq.
    destruct H as (k2&E&?). by simplify_eq.
  Qed.

  Lemma key_of_live s x h : reachable s → live s x = Some h → is_Some (key_of P FS s x).
  Proof.
    intros Hr Hl%live_vars. destruct (no_dangling P FS cfg eqv good Heq HP HF t0 _ _ _ Hr Hl) as (r&Hv&_).
    unfold key_of. rewrite Hv. eauto.
  Qed.
  Lemma key_of_live_inv s x k : key_of P FS s x = Some k → ∃ h, live s x = Some h.
  Proof. unfold key_of, value_of, live. repeat case_match; naive_solver. Qed.

  (** thread [t] is constructing [x] from key [k], or has finished *)
  Definition building s (t : tid) (x : var) (k : K) : Prop :=
    (∃ ko, omap mkof (stack s t) = [(x, ko)] ∧ (ko = None ∨ ko = Some k)) ∨
    (omap mkof (stack s t) = [] ∧ vars s !! x = None) ∨
    (omap mkof (stack s t) = [] ∧ ∃ k', key_of P FS s x = Some k' ∧ eqv k' k = true).

  Lemma building_step s l s' t x k : reachable s → allowed (label_tid l) → step s l = Next s' →
    starts t l = false → writes x l = false → building s t x k → building s' t x k.
  Proof.
    intros Hr Hal Hs Hst Hw HB. pose proof (reach_inv P FS cfg eqv good Heq HP HF t0 s Hr) as HI.
    destruct (decide (t = label_tid l)) as [E|Hne].
    2: { pose proof (step_other _ _ _ _ Hs Hne) as Eo. unfold building. rewrite Eo.
         destruct HB as [HB|[[HB Hx]|[HB (k'&Hk&Ek)]]].
         - by left.
         - right; left. split; [done|]. by eapply keep_none.
         - right; right. split; [done|]. exists k'. split; [|done]. by eapply keep_key. }
    destruct l as [t' o|t' c]; simpl in E; subst t'; simpl in Hst; [by rewrite bool_decide_true in Hst|].
    pose proof Hs as Hs'. cbn [Core.step] in Hs. destruct (stack s t) as [|i rest] eqn:Hstk; [done|].
    pose proof (exec_goal P FS cfg _ _ _ _ _ _ Hstk Hs) as Hg.
    destruct HB as [(ko&HB&Hko)|HB].
    - rewrite Hstk in HB.
      assert (Hgen : omap mkof (stack s' t) = omap mkof (i :: rest) ∨
           (∃ x k, mkof i = Some (x, Some k) ∧ omap mkof (stack s' t) = (x, None) :: omap mkof rest) →
         building s' t x k).
      { intros [Hg1|(y&k1&Hm&Hg1)]; left.
        - exists ko. by rewrite Hg1.
        - exists None. split; [|by left]. rewrite Hg1. simpl in HB. rewrite Hm in HB. injection HB as <- _ E3. f_equal. exact E3. }
      assert (Hinv' : Inv s').
      { pose proof (step_ok P FS cfg eqv good Heq HP HF t0 s (LRun t c) HI Hal) as Hok. by rewrite Hs' in Hok. }
      destruct i as [y p r|y p r|y h p ks ky|y h ks ky|y h ks ky| |h|h|h|h|y h ky|y].
      1-10: by apply Hgen.
      + simpl in HB. injection HB as -> <- Hrest. destruct Hko as [?|[= ->]]; [done|].
        right; right. rewrite Hg. split; [done|].
        assert (Hmk : vars s !! x = Some None).
        { apply (making_var P FS cfg eqv good HF t0 s t x (Some k) HI). rewrite Hstk. simpl. by left. }
        assert (∃ n, entry s h = Some n ∧ eqv (p_key P (n_rep n)) k = true) as (n&Hn&Hk).
        { simpl in Hs. injection Hs as <-. destruct (eff_step P FS cfg eqv good Heq HP HF t0 _ _ _ HI Hal Hs')
            as [oe Hsh _ Hv _|? ? ? ? ? ? ? [= -> ->] Hq|? ? ? ? ? ? ? ? ? [= -> ->] Hq|? ? ? ? ? ? [= -> ->] Hq Hor].
          - simpl in Hv. remember (<[x:=Some h]> (vars s)) as vs' eqn:Ev.
            destruct Hv as [|t1 y p ys E1 Hy|t1 c1 y h' k1 rest1 m' [= -> ->] E2 Hy Hm' Hk'|t1 c1 y rest1 [= -> ->] E2 Hy|t1 y z h' E1 Hy Hz
              |t1 y z hx hy E1 Hy Hz|t1 y z hx hy E1 Hy Hz|t1 y h' E1 Hy|t1 y h' m' E1 Hy Hm' Hd|t1 y z q h0' h' m' E1 Hy Hz Hq' Hm' Hd]; try done.
            + rewrite Ev, lookup_insert in Hmk. done.
            + rewrite Hstk in E2. injection E2 as -> -> -> _. eauto.
            + rewrite Hstk in E2. done.
          - rewrite Hstk in Hq. done.
          - rewrite Hstk in Hq. done.
          - rewrite Hstk in Hq. injection Hq as <- _. destruct Hor as [(?&?)|(?&?&?&?&?&?)]; done. }
        simpl in Hs. injection Hs as <-. exists (p_key P (n_rep n)). split; [|done].
        unfold key_of, value_of. simpl. rewrite lookup_insert. apply entry_heap in Hn as [Hn _]. by rewrite Hn.
      + simpl in HB. injection HB as -> <- Hrest. right; left. rewrite Hg. split; [done|].
        simpl in Hs. injection Hs as <-. simpl. by rewrite lookup_delete.
    - assert (Homap : omap mkof (i :: rest) = []) by (rewrite <- Hstk; by destruct HB as [[? _]|[? _]]).
      assert (E' : omap mkof (stack s' t) = []).
      { destruct i; simpl in Homap; try done;
          (destruct Hg as [->|(y&k1&Hm&Hg1)]; [done|]; done). }
      right. destruct HB as [[_ Hx]|[_ (k'&Hk&Ek)]].
      + left. split; [done|]. by eapply keep_none.
      + right. split; [done|]. exists k'. split; [|done]. by eapply keep_key.
  Qed.

  Lemma building_start s t x p k s' : step s (LStart t (ONew x p [])) = Next s' →
    (∀ r, p_make P p [] = Some r → p_key P r = k) → building s' t x k.
  Proof.
    intros Hs Hm. simpl in Hs. destruct (stack s t); [|done]. simpl in Hs. destruct (vars s !! x); [done|].
    left. destruct (p_make P p []) as [r|]; injection Hs as <-.
    - exists (Some (p_key P r)). rewrite stack_set, decide_True by done. split; [done|]. right. f_equal. by apply Hm.
    - exists None. rewrite stack_set, decide_True by done. split; [done|]. by left.
  Qed.

  Lemma building_end s t x k : reachable s → building s t x k → stack s t = [] →
    vars s !! x = None ∨ ∃ k', key_of P FS s x = Some k' ∧ eqv k' k = true.
  Proof.
    intros Hr HB Hst. unfold building in HB. rewrite Hst in HB. destruct HB as [(ko&HB&_)|[[_ ?]|[_ ?]]]; [done|by left|by right].
  Qed.
End CoreFacts.

Section Canon.
  Context {K : Type} (eqv : K → K → bool).
  Fixpoint classes (seen ks : list K) : list K :=
    match ks with
    | [] => seen
    | k :: ks => match class eqv seen k with Some _ => classes seen ks | None => classes (seen ++ [k]) ks end
    end.
  Lemma canon_app ks1 ks2 : ∀ seen,
    canon eqv seen (ks1 ++ ks2) = canon eqv seen ks1 ++ canon eqv (classes seen ks1) ks2.
  Proof. induction ks1 as [|k ks IH]; intros seen; simpl; [done|]. destruct (class eqv seen k); simpl; by rewrite IH. Qed.
  Lemma classes_app ks1 ks2 : ∀ seen, classes seen (ks1 ++ ks2) = classes (classes seen ks1) ks2.
  Proof. induction ks1 as [|k ks IH]; intros seen; simpl; [done|]. by destruct (class eqv seen k). Qed.
  Lemma class_lookup seen k i : class eqv seen k = Some i → ∃ k', seen !! i = Some k' ∧ eqv k' k = true.
  Proof.
    revert i. induction seen as [|k1 seen IH]; intros i; simpl; [done|]. destruct (eqv k1 k) eqn:E.
    - intros [= <-]. eauto.
    - destruct (class eqv seen k) as [j|]; simpl; [|done]. intros [= <-]. simpl. by apply IH.
  Qed.
  Lemma class_none seen k : class eqv seen k = None ↔ ∀ k', k' ∈ seen → eqv k' k = false.
  Proof.
    induction seen as [|k1 seen IH]; simpl.
    - split; [|done]. by intros _ k' ?%elem_of_nil.
    - destruct (eqv k1 k) eqn:E.
      + split; [done|]. intros H. rewrite H in E; [done|by left].
      + split.
        * intros H k' [->|Hk]%elem_of_cons; [done|]. destruct (class eqv seen k); [done|]. by apply IH.
        * intros H. assert (class eqv seen k = None) as ->; [|done]. apply IH. intros k' ?. apply H. by right.
  Qed.
End Canon.

Section Save.
  Context {K A R V W : Type}.
  Context (P : policy K A R V) (FS : factory K) (cfg : config).
  Context (ci : codec nat W) (ck : codec K W).
  Context (eqv : K → K → bool) (good : R → Prop).
  Context (Heq : equivalence eqv) (HP : policy_ok eqv good P) (HF : factory_spec eqv FS).
  Context (t0 : tid).

  Notation state := (state (R:=R) (K:=K) (A:=A) FS).
  Notation sstate := (sstate (R:=R) (K:=K) (A:=A) (W:=W) FS).
  Notation allowed := (allowed cfg t0).
  Notation step := (step P FS cfg).
  Notation reachable := (reachable P FS cfg t0).
  Notation key_of := (key_of P FS).
  Notation classes := (classes eqv []).
  Notation archive := (archive ci ck eqv).
  Implicit Types (s : state) (S : sstate).

  Definition SRel S (ks : list K) : Prop :=
    reachable (sv_core S) ∧
    match sv_pc S with
    | None => Forall2 (λ z k, key_of (sv_core S) z = Some k) (sv_tab S) (classes ks) ∧ sv_out S = archive ks
    | Some (t, x) => allowed t ∧ ∃ ks' k, ks = ks' ++ [k] ∧ key_of (sv_core S) x = Some k ∧
        class eqv (classes ks') k = None ∧
        Forall2 (λ z k, key_of (sv_core S) z = Some k) (sv_tab S) (classes ks') ∧
        sv_out S = archive ks' ++ enc ci (length (classes ks'))
    end.

  Lemma archive_app ks k : archive (ks ++ [k]) = archive ks ++
    match class eqv (classes ks) k with
    | Some i => enc ci i
    | None => enc ci (length (classes ks)) ++ enc ck k
    end.
  Proof.
    unfold SerializeSpec.archive. rewrite canon_app, map_app, concat_app. f_equal. simpl.
    destruct (class eqv (classes ks) k); simpl; unfold words; simpl; by rewrite !app_nil_r.
  Qed.
  Lemma classes_snoc ks k : classes (ks ++ [k]) =
    match class eqv (classes ks) k with Some _ => classes ks | None => classes ks ++ [k] end.
  Proof. rewrite classes_app. simpl. by destruct (class eqv (classes ks) k). Qed.

  Lemma find_class s tab seen x h k : reachable s → Forall2 (λ z k, key_of s z = Some k) tab seen →
    live s x = Some h → key_of s x = Some k →
    tab_find FS s tab h = match class eqv seen k with Some i => i | None => length tab end.
  Proof.
    intros Hr HT Hx Hk. induction HT as [|z kz tab seen Hz HT IH]; simpl; [done|].
    assert (live s z = Some h ↔ eqv kz k = true) as E.
    { unfold CoreSpec.key_of in Hk, Hz. destruct (value_of s x) as [[hx rx]|] eqn:Ex; [|done].
      destruct (value_of s z) as [[hz rz]|] eqn:Ez; [|done]. simplify_eq.
      rewrite <- (sharing P FS cfg eqv good Heq HP HF t0 s z x hz rz hx rx Hr Ez Ex).
      unfold value_of in Ex, Ez. apply live_vars in Hx. rewrite Hx in Ex.
      destruct (heap s !! h); [|done]. simplify_eq.
      unfold live. destruct (vars s !! z) as [[h'|]|]; [|done..]. destruct (heap s !! h'); [|done]. simplify_eq.
      split; congruence. }
    destruct (decide (live s z = Some h)) as [D|D].
    - apply E in D. by rewrite D.
    - destruct (eqv kz k); [by rewrite E in D|]. rewrite IH. by destruct (class eqv seen k).
  Qed.

  Lemma core_ok s l : reachable s → allowed (label_tid l) →
    match core_step P FS cfg s l with Ok s' => step s l = Next s' ∧ reachable s' | Blocked => True | Bad => False end.
  Proof.
    intros Hr Hal. pose proof (reach_inv P FS cfg eqv good Heq HP HF t0 s Hr) as HI.
    pose proof (step_ok P FS cfg eqv good Heq HP HF t0 s l HI Hal) as Hok. unfold core_step.
    destruct (step s l) as [s'| |] eqn:E; [|done|done]. split; [done|]. by eapply reach_step.
  Qed.

  Lemma forall2_keep s l s' tab seen : reachable s → allowed (label_tid l) → step s l = Next s' →
    existsb (λ z, writes z l) tab = false → Forall2 (λ z k, key_of s z = Some k) tab seen →
    Forall2 (λ z k, key_of s' z = Some k) tab seen.
  Proof.
    intros Hr Hal Hs Hw HT. induction HT as [|z k tab seen Hz HT IH]; [constructor|]. simpl in Hw.
    apply orb_false_iff in Hw as [Hw1 Hw2]. constructor; [|by apply IH].
    by eapply (keep_key P FS cfg eqv good Heq HP HF t0).
  Qed.

  Definition sallowed (l : slabel (A:=A)) : Prop :=
    match l with SCore l => allowed (label_tid l) | SBegin t _ => allowed t | SEnd _ => True end.

  Lemma srel_step S ks l : SRel S ks → sallowed l →
    match sstep P FS cfg ci ck S l with
    | Ok S' => SRel S' (ks ++ match l with SBegin _ x => option_list (key_of (sv_core S) x) | _ => [] end)
    | Blocked => True
    | Bad => False
    end.
  Proof.
    intros [Hr HS] Hal. destruct l as [l|t x|z]; simpl in *.
    - destruct (existsb (λ z, writes z l) (sv_tab S) || _) eqn:Eb; [done|].
      apply orb_false_iff in Eb as [Eb Ep]. pose proof (core_ok _ l Hr Hal) as Hc.
      destruct (core_step P FS cfg (sv_core S) l) as [s'| |]; [|done|done]. destruct Hc as [Hs Hr'].
      rewrite app_nil_r. split; [done|]. simpl. destruct (sv_pc S) as [[t x]|].
      + apply orb_false_iff in Ep as [Ep1 Ep2]. destruct HS as (Ht&ks'&k&->&Hk&Hcl&HT&Ho). split; [done|].
        exists ks', k. split_and!; [done| |done| |done].
        * by eapply (keep_key P FS cfg eqv good Heq HP HF t0 _ _ _ _ _ Hr Hal Hs).
        * by eapply (forall2_keep _ _ _ _ _ Hr Hal Hs).
      + destruct HS as [HT Ho]. split; [|done]. by eapply (forall2_keep _ _ _ _ _ Hr Hal Hs).
    - destruct (sv_pc S) as [[]|]; [done|]. destruct (stack (sv_core S) t); [|done].
      destruct (live (sv_core S) x) as [h|] eqn:Hx; [|done]. destruct HS as [HT Ho].
      pose proof (reach_inv P FS cfg eqv good Heq HP HF t0 _ Hr) as HI.
      destruct (live_entry _ _ _ _ _ _ _ _ _ _ HI Hx) as (n&Hn&_). rewrite Hn.
      destruct (key_of_live P FS cfg eqv good Heq HP HF t0 _ _ _ Hr Hx) as [k Hk]. rewrite Hk. simpl.
      pose proof (find_class _ _ _ _ _ _ Hr HT Hx Hk) as ->. pose proof (Forall2_length _ _ _ HT) as Hlen.
      split; [done|]. simpl. destruct (class eqv (classes ks) k) as [i|] eqn:Ec.
      + destruct (class_lookup _ _ _ _ Ec) as (k'&Hi&_). apply lookup_lt_Some in Hi.
        rewrite decide_False by lia. rewrite classes_snoc, archive_app, Ec, Ho. done.
      + rewrite decide_True by done. split; [done|]. exists ks, k. split_and!; [done..|]. by rewrite Ho, Hlen.
    - destruct (sv_pc S) as [[t x]|]; [|done]. destruct HS as (Ht&ks'&k&->&Hk&Hcl&HT&Ho).
      destruct (key_of_live_inv P FS _ _ _ Hk) as [h Hx]. rewrite Hx.
      pose proof (reach_inv P FS cfg eqv good Heq HP HF t0 _ Hr) as HI.
      destruct (live_entry _ _ _ _ _ _ _ _ _ _ HI Hx) as (n&Hn&_). rewrite Hn.
      pose proof (core_ok _ (LStart t (OCopy z x)) Hr Ht) as Hc.
      destruct (core_step P FS cfg (sv_core S) _) as [s'| |]; [|done|done]. destruct Hc as [Hs Hr'].
      rewrite app_nil_r. split; [done|]. simpl. rewrite classes_snoc, archive_app, Hcl, Ho.
      destruct (copy_step P FS cfg eqv good Heq HP HF t0 _ _ _ _ _ Hr Ht Hs) as (Hz&_&Ho'&_).
      assert (Hzn : vars (sv_core S) !! z = None).
      { simpl in Hs. destruct (stack (sv_core S) t); [|done]. simpl in Hs. by destruct (vars (sv_core S) !! z). }
      assert (p_key P (n_rep n) = k) as ->.
      { unfold CoreSpec.key_of, value_of in Hk. apply live_vars in Hx. rewrite Hx in Hk.
        apply entry_heap in Hn as [Hn _]. rewrite Hn in Hk. by simplify_eq. }
      split; [|by rewrite <- app_assoc]. apply Forall2_app.
      + eapply Forall2_impl; [exact HT|]. simpl. intros z' k' Hk'. unfold CoreSpec.key_of in *. rewrite Ho'; [done|].
        intros ->. unfold value_of in Hk'. by rewrite Hzn in Hk'.
      + constructor; [|constructor]. unfold CoreSpec.key_of in *. by rewrite Hz.
  Qed.

  Lemma srel_run ls : ∀ S ks, SRel S ks → Forall sallowed ls →
    ∃ S', srun P FS cfg ci ck S ls = Ok S' ∧ SRel S' (ks ++ saved P FS cfg ci ck S ls).
  Proof.
    induction ls as [|l ls IH]; intros S ks HS Hal; cbn [srun saved].
    - exists S. by rewrite app_nil_r.
    - inversion Hal; subst. pose proof (srel_step S ks l HS) as Hl.
      destruct (sstep P FS cfg ci ck S l) as [S1| |]; [|by apply IH|by destruct Hl].
      destruct (IH S1 _ (Hl H1) H2) as (S'&Hr&HS'). exists S'. split; [done|]. by rewrite <- app_assoc in HS'.
  Qed.

  Lemma srel_init s : reachable s → SRel (sinit FS s) [].
  Proof. intros Hr. split; [done|]. by split; [constructor|]. Qed.

  Lemma ssched_allowed ls : ssched_ok cfg t0 ls → Forall sallowed ls.
  Proof.
    intros H. destruct (lck cfg) eqn:E.
    - apply Forall_forall. intros l _. destruct l; simpl; try done; unfold CoreStep.allowed; congruence.
    - eapply Forall_impl; [by apply H|]. intros [l|t x|z]; simpl; unfold CoreStep.allowed; done.
  Qed.

  (** the archive written depends on the sequence of keys saved only *)
  Lemma save_archive s ls : reachable s → ssched_ok cfg t0 ls →
    ∃ S, srun P FS cfg ci ck (sinit FS s) ls = Ok S ∧
      (sv_pc S = None → sv_out S = archive (saved P FS cfg ci ck (sinit FS s) ls)).
  Proof.
    intros Hr Hok. destruct (srel_run ls (sinit FS s) []) as (S&HS&_&Hrel).
    - by apply srel_init.
    - by apply ssched_allowed.
    - exists S. split; [done|]. intros E. rewrite E in Hrel. by destruct Hrel.
  Qed.
End Save.

Section Load.
  Context {K A R V W : Type}.
  Context (P : policy K A R V) (FS : factory K) (cfg : config).
  Context (ci : codec nat W) (ck : codec K W) (arg : K → A).
  Context (eqv : K → K → bool) (good : R → Prop).
  Context (Heq : equivalence eqv) (HP : policy_ok eqv good P) (HF : factory_spec eqv FS).
  Context (Harg : ∀ k r, p_make P (arg k) [] = Some r → p_key P r = k).
  Context (t0 : tid).

  Notation state := (state (R:=R) (K:=K) (A:=A) FS).
  Notation lstate := (lstate (R:=R) (K:=K) (A:=A) (W:=W) FS).
  Notation allowed := (allowed cfg t0).
  Notation step := (step P FS cfg).
  Notation reachable := (reachable P FS cfg t0).
  Notation key_of := (key_of P FS).
  Notation read := (read ci ck).
  Notation building := (building P FS eqv).
  Implicit Types (s : state) (S : lstate).

  (** object [z] stands for key [k] *)
  Definition stands s (z : var) (k : K) : Prop := ∃ k', key_of s z = Some k' ∧ eqv k' k = true.
  Definition tab_ok s (tab : list var) (seen : list K) : Prop := Forall2 (stands s) tab seen.
  (** the target of the load is there, apart from the table *)
  Definition target s (tab : list var) (t : tid) (x : var) : Prop :=
    allowed t ∧ x ∉ tab ∧ is_Some (key_of s x).

  Definition LRel S (seen0 : list K) (in0 : list W) (v0 : option (addr * R)) : Prop :=
    reachable (ld_core S) ∧
    match ld_pc S with
    | PIdle => tab_ok (ld_core S) (ld_tab S) seen0 ∧ ld_in S = in0 ∧ ld_made S = ld_gone S
    | PKey t x tmp n =>
        target (ld_core S) (ld_tab S) t x ∧ value_of (ld_core S) x = v0 ∧ vars (ld_core S) !! tmp = None ∧
        tab_ok (ld_core S) (ld_tab S) seen0 ∧ n = length seen0 ∧
        dec ci in0 = Some (n, ld_in S) ∧ ld_made S = ld_gone S
    | PRead t x tmp n =>
        target (ld_core S) (ld_tab S) t x ∧ value_of (ld_core S) x = v0 ∧ vars (ld_core S) !! tmp = None ∧
        tab_ok (ld_core S) (ld_tab S) seen0 ∧ n = length seen0 ∧
        dec ci in0 = Some (n, ld_in S) ∧ ld_made S = ld_gone S + 1
    | PMake t x tmp n k =>
        target (ld_core S) (ld_tab S) t x ∧ value_of (ld_core S) x = v0 ∧ building (ld_core S) t tmp k ∧
        tmp ∉ ld_tab S ∧ tmp ≠ x ∧ tab_ok (ld_core S) (ld_tab S) seen0 ∧ n = length seen0 ∧
        read seen0 in0 = Some (k, seen0 ++ [k], ld_in S) ∧ ld_made S = ld_gone S + 1
    | PPush t x tmp n k =>
        target (ld_core S) (ld_tab S) t x ∧ value_of (ld_core S) x = v0 ∧ stands (ld_core S) tmp k ∧
        tmp ∉ ld_tab S ∧ tmp ≠ x ∧ tab_ok (ld_core S) (ld_tab S) seen0 ∧ n = length seen0 ∧
        read seen0 in0 = Some (k, seen0 ++ [k], ld_in S) ∧ ld_made S = ld_gone S + 1
    | PDrop t x tmp n =>
        target (ld_core S) (ld_tab S) t x ∧ ∃ k, tmp ∉ ld_tab S ∧ tmp ≠ x ∧
        tab_ok (ld_core S) (ld_tab S) (seen0 ++ [k]) ∧ n = length seen0 ∧
        read seen0 in0 = Some (k, seen0 ++ [k], ld_in S) ∧ ld_made S = ld_gone S + 1
    | PKill t x tmp n =>
        target (ld_core S) (ld_tab S) t x ∧ ∃ k, vars (ld_core S) !! tmp = None ∧
        tab_ok (ld_core S) (ld_tab S) (seen0 ++ [k]) ∧ n = length seen0 ∧
        read seen0 in0 = Some (k, seen0 ++ [k], ld_in S) ∧ ld_made S = ld_gone S + 1
    | PFail t x tmp =>
        target (ld_core S) (ld_tab S) t x ∧ value_of (ld_core S) x = v0 ∧ vars (ld_core S) !! tmp = None ∧
        tab_ok (ld_core S) (ld_tab S) seen0 ∧ ld_made S = ld_gone S + 1
    | PCopy t x tmp n =>
        target (ld_core S) (ld_tab S) t x ∧ ∃ k seen, vars (ld_core S) !! tmp = None ∧
        tab_ok (ld_core S) (ld_tab S) seen ∧ seen !! n = Some k ∧
        read seen0 in0 = Some (k, seen, ld_in S) ∧ ld_made S = ld_gone S
    | PAssign t x tmp n =>
        target (ld_core S) (ld_tab S) t x ∧ ∃ k seen, stands (ld_core S) tmp k ∧ tmp ∉ ld_tab S ∧ tmp ≠ x ∧
        tab_ok (ld_core S) (ld_tab S) seen ∧
        read seen0 in0 = Some (k, seen, ld_in S) ∧ ld_made S = ld_gone S
    | PDrop2 t x tmp n =>
        target (ld_core S) (ld_tab S) t x ∧ ∃ k seen, stands (ld_core S) x k ∧ tmp ∉ ld_tab S ∧ tmp ≠ x ∧
        tab_ok (ld_core S) (ld_tab S) seen ∧
        read seen0 in0 = Some (k, seen, ld_in S) ∧ ld_made S = ld_gone S
    | PReturn t x tmp n =>
        target (ld_core S) (ld_tab S) t x ∧ ∃ k seen, stands (ld_core S) x k ∧ vars (ld_core S) !! tmp = None ∧
        tab_ok (ld_core S) (ld_tab S) seen ∧
        read seen0 in0 = Some (k, seen, ld_in S) ∧ ld_made S = ld_gone S
    end.

  Section Frame.
    Context (s s' : state) (l : label (A:=A)) (Hr : reachable s) (Hal : allowed (label_tid l)) (Hs : step s l = Next s').
    Lemma stands_keep z k : writes z l = false → stands s z k → stands s' z k.
    Proof. intros Hw (k'&Hk&E). exists k'. split; [|done]. by eapply (keep_key P FS cfg eqv good Heq HP HF t0 s l). Qed.
    Lemma tab_keep tab seen : (∀ z, z ∈ tab → writes z l = false) → tab_ok s tab seen → tab_ok s' tab seen.
    Proof.
      intros Hw HT. induction HT as [|z k tab seen Hz HT IH]; [constructor|]. constructor.
      - apply stands_keep; [|done]. apply Hw. by left.
      - apply IH. intros z' Hz'. apply Hw. by right.
    Qed.
    Lemma target_keep tab t x : writes x l = false → target s tab t x → target s' tab t x.
    Proof.
      intros Hw (?&?&[k Hk]). split_and!; [done..|]. exists k.
      by eapply (keep_key P FS cfg eqv good Heq HP HF t0 s l).
    Qed.
    Lemma val_keep x v tab t : writes x l = false → target s tab t x → value_of s x = v → value_of s' x = v.
    Proof.
      intros Hw (_&_&[k Hk]) <-. unfold CoreSpec.key_of in Hk. destruct (value_of s x) as [v|] eqn:E; [|done].
      by eapply (keep_value P FS cfg eqv good Heq HP HF t0 s l).
    Qed.
  End Frame.

  Lemma lrel_core S seen0 in0 v0 l : LRel S seen0 in0 v0 → allowed (label_tid l) →
    match lstep P FS cfg ci ck arg S (LCore l) with
    | Ok S' => LRel S' seen0 in0 v0 ∧ ld_rets S' = ld_rets S
    | Blocked => True
    | Bad => False
    end.
  Proof.
    intros [Hr HS] Hal. unfold lstep.
    destruct (existsb (λ z, writes z l) (ld_tab S ++ pc_vars (ld_pc S)) || _) eqn:Eb; [done|].
    apply orb_false_iff in Eb as [Eb Ep]. pose proof (core_ok P FS cfg eqv good Heq HP HF t0 _ l Hr Hal) as Hc.
    destruct (core_step P FS cfg (ld_core S) l) as [s'| |]; [|done|done]. destruct Hc as [Hs Hr'].
    assert (Hw : ∀ z, z ∈ ld_tab S ++ pc_vars (ld_pc S) → writes z l = false).
    { intros z Hz. destruct (writes z l) eqn:E; [|done]. exfalso.
      assert (existsb (λ z, writes z l) (ld_tab S ++ pc_vars (ld_pc S)) = true); [|congruence].
      apply existsb_exists. exists z. split; [|done]. by apply elem_of_list_In. }
    assert (Ht : ∀ z, z ∈ ld_tab S → writes z l = false) by (intros; apply Hw, elem_of_app; by left).
    split; [|done]. split; [done|]. simpl.
    destruct (ld_pc S) as [|t x tmp n|t x tmp n|t x tmp n k|t x tmp n k|t x tmp n|t x tmp n|t x tmp|t x tmp n|t x tmp n|t x tmp n|t x tmp n];
      simpl in *.
    - destruct HS as (HT&?). split; [|done]. by eapply (tab_keep _ _ _ Hr Hal Hs).
    - assert (Hx : writes x l = false) by (apply Hw; set_solver).
      assert (Htm : writes tmp l = false) by (apply Hw; set_solver).
      destruct HS as (HX&HV&HN&HT&?). split_and!; [by eapply (target_keep _ _ _ Hr Hal Hs)|by eapply (val_keep _ _ _ Hr Hal Hs)| |by eapply (tab_keep _ _ _ Hr Hal Hs)|idtac..]; try naive_solver.
      by eapply (keep_none P FS cfg eqv good Heq HP HF t0 _ _ _ _ Hr Hal Hs).
    - assert (Hx : writes x l = false) by (apply Hw; set_solver).
      assert (Htm : writes tmp l = false) by (apply Hw; set_solver).
      destruct HS as (HX&HV&HN&HT&?). split_and!; [by eapply (target_keep _ _ _ Hr Hal Hs)|by eapply (val_keep _ _ _ Hr Hal Hs)| |by eapply (tab_keep _ _ _ Hr Hal Hs)|idtac..]; try naive_solver.
      by eapply (keep_none P FS cfg eqv good Heq HP HF t0 _ _ _ _ Hr Hal Hs).
    - assert (Hx : writes x l = false) by (apply Hw; set_solver).
      assert (Htm : writes tmp l = false) by (apply Hw; set_solver).
      destruct HS as (HX&HV&HN&?&?&HT&?). split_and!; [by eapply (target_keep _ _ _ Hr Hal Hs)|by eapply (val_keep _ _ _ Hr Hal Hs)| |done|done|by eapply (tab_keep _ _ _ Hr Hal Hs)|idtac..]; try naive_solver.
      by eapply (building_step P FS cfg eqv good Heq HP HF t0 _ _ _ _ _ _ Hr Hal Hs).
    - assert (Hx : writes x l = false) by (apply Hw; set_solver).
      assert (Htm : writes tmp l = false) by (apply Hw; set_solver).
      destruct HS as (HX&HV&HN&?&?&HT&?). split_and!; [by eapply (target_keep _ _ _ Hr Hal Hs)|by eapply (val_keep _ _ _ Hr Hal Hs)| |done|done|by eapply (tab_keep _ _ _ Hr Hal Hs)|idtac..]; try naive_solver.
      by eapply (stands_keep _ _ _ Hr Hal Hs).
    - assert (Hx : writes x l = false) by (apply Hw; set_solver).
      destruct HS as (HX&k&?&?&HT&?). split; [by eapply (target_keep _ _ _ Hr Hal Hs)|]. exists k. split_and!; [done|done|by eapply (tab_keep _ _ _ Hr Hal Hs)|idtac..]; try naive_solver.
    - assert (Hx : writes x l = false) by (apply Hw; set_solver).
      assert (Htm : writes tmp l = false) by (apply Hw; set_solver).
      destruct HS as (HX&k&HN&HT&?). split; [by eapply (target_keep _ _ _ Hr Hal Hs)|]. exists k. split_and!; [|by eapply (tab_keep _ _ _ Hr Hal Hs)|idtac..]; try naive_solver.
      by eapply (keep_none P FS cfg eqv good Heq HP HF t0 _ _ _ _ Hr Hal Hs).
    - assert (Hx : writes x l = false) by (apply Hw; set_solver).
      assert (Htm : writes tmp l = false) by (apply Hw; set_solver).
      destruct HS as (HX&HV&HN&HT&?). split_and!; [by eapply (target_keep _ _ _ Hr Hal Hs)|by eapply (val_keep _ _ _ Hr Hal Hs)| |by eapply (tab_keep _ _ _ Hr Hal Hs)|done].
      by eapply (keep_none P FS cfg eqv good Heq HP HF t0 _ _ _ _ Hr Hal Hs).
    - assert (Hx : writes x l = false) by (apply Hw; set_solver).
      assert (Htm : writes tmp l = false) by (apply Hw; set_solver).
      destruct HS as (HX&k&seen&HN&HT&?). split; [by eapply (target_keep _ _ _ Hr Hal Hs)|]. exists k, seen. split_and!; [|by eapply (tab_keep _ _ _ Hr Hal Hs)|idtac..]; try naive_solver.
      by eapply (keep_none P FS cfg eqv good Heq HP HF t0 _ _ _ _ Hr Hal Hs).
    - assert (Hx : writes x l = false) by (apply Hw; set_solver).
      assert (Htm : writes tmp l = false) by (apply Hw; set_solver).
      destruct HS as (HX&k&seen&HN&?&?&HT&?). split; [by eapply (target_keep _ _ _ Hr Hal Hs)|]. exists k, seen.
      split_and!; [by eapply (stands_keep _ _ _ Hr Hal Hs)|done|done|by eapply (tab_keep _ _ _ Hr Hal Hs)|idtac..]; try naive_solver.
    - assert (Hx : writes x l = false) by (apply Hw; set_solver).
      destruct HS as (HX&k&seen&HN&?&?&HT&?). split; [by eapply (target_keep _ _ _ Hr Hal Hs)|]. exists k, seen.
      split_and!; [by eapply (stands_keep _ _ _ Hr Hal Hs)|done|done|by eapply (tab_keep _ _ _ Hr Hal Hs)|idtac..]; try naive_solver.
    - assert (Hx : writes x l = false) by (apply Hw; set_solver).
      assert (Htm : writes tmp l = false) by (apply Hw; set_solver).
      destruct HS as (HX&k&seen&HB&HN&HT&?). split; [by eapply (target_keep _ _ _ Hr Hal Hs)|]. exists k, seen.
      split_and!; [by eapply (stands_keep _ _ _ Hr Hal Hs)| |by eapply (tab_keep _ _ _ Hr Hal Hs)|idtac..]; try naive_solver.
      by eapply (keep_none P FS cfg eqv good Heq HP HF t0 _ _ _ _ Hr Hal Hs).
  Qed.

  Definition post S (seen0 : list K) (in0 : list W) (v0 : option (addr * R)) S' : Prop :=
    (ld_rets S' = ld_rets S ∧ LRel S' seen0 in0 v0) ∨
    (∃ x k seen, ld_rets S' = (x, true) :: ld_rets S ∧ read seen0 in0 = Some (k, seen, ld_in S') ∧
       stands (ld_core S') x k ∧ ld_pc S' = PIdle ∧ ∀ v, LRel S' seen (ld_in S') v) ∨
    (∃ x, ld_rets S' = (x, false) :: ld_rets S ∧ value_of (ld_core S') x = v0 ∧ ld_pc S' = PIdle ∧
       ∀ v, LRel S' seen0 (ld_in S') v).

  Lemma lrel_begin S seen0 in0 v0 t x tmp : LRel S seen0 in0 v0 → allowed t →
    match lstep P FS cfg ci ck arg S (LBegin t x tmp) with
    | Ok S' => ld_pc S = PIdle ∧ post S seen0 in0 (value_of (ld_core S) x) S'
    | Blocked => True
    | Bad => False
    end.
  Proof.
    intros [Hr HS] Hal. simpl. destruct (ld_pc S) eqn:Epc; try done. destruct (stack (ld_core S) t); [|done].
    destruct (live (ld_core S) x) as [h|] eqn:Hx; [|done]. destruct (vars (ld_core S) !! tmp) eqn:Htmp; [done|].
    destruct (existsb (λ z, bool_decide (x = z)) (ld_tab S)) eqn:Etab; [done|].
    destruct HS as (HT&Hin&Hmg).
    assert (HX : target (ld_core S) (ld_tab S) t x).
    { split_and!; [done| |by eapply key_of_live]. intros Hin'.
      assert (existsb (λ z, bool_decide (x = z)) (ld_tab S) = true); [|congruence].
      apply existsb_exists. exists x. split; [by apply elem_of_list_In|by apply bool_decide_eq_true]. }
    pose proof (Forall2_length _ _ _ HT) as Hlen.
    destruct (dec ci (ld_in S)) as [[n i]|] eqn:Ed.
    - destruct (decide (length (ld_tab S) < n)).
      + split; [done|]. right; right. exists x. simpl. split_and!; [done..|]. intros v. split; [done|]. simpl. done.
      + destruct (decide (n = length (ld_tab S))).
        * split; [done|]. left. split; [done|]. split; [done|]. simpl. rewrite <- Hin, Ed. split_and!; try done; try lia.
        * split; [done|]. left. split; [done|]. split; [done|]. simpl. split; [done|].
          destruct (lookup_lt_is_Some_2 seen0 n) as [k Hk]; [lia|].
          exists k, seen0. unfold SerializeSpec.read. rewrite <- Hin, Ed, decide_False, Hk by lia. done.
    - split; [done|]. right; right. exists x. simpl. split_and!; [done..|]. intros v. split; [done|]. simpl. done.
  Qed.

  Lemma stands_tab s tab seen n k z : tab_ok s tab seen → seen !! n = Some k → tab !! n = Some z → stands s z k.
  Proof. intros HT Hk Hz. by apply (Forall2_lookup_lr _ _ _ _ _ _ HT Hz Hk). Qed.

  Lemma none_stands s tab seen x : vars s !! x = None → tab_ok s tab seen → x ∉ tab.
  Proof.
    intros Hn HT Hin. apply elem_of_list_lookup in Hin as [i Hi].
    destruct (Forall2_lookup_l _ _ _ _ _ HT Hi) as (k&_&k'&Hk&_). unfold CoreSpec.key_of, value_of in Hk. by rewrite Hn in Hk.
  Qed.

  Lemma tab_values s s' tab seen : (∀ y, y ∈ tab → value_of s' y = value_of s y) → tab_ok s tab seen → tab_ok s' tab seen.
  Proof.
    intros Hv HT. induction HT as [|z k tab seen (k'&Hz&E) HT IH]; [constructor|]. constructor.
    - exists k'. split; [|done]. unfold CoreSpec.key_of in *. rewrite Hv; [done|by left].
    - apply IH. intros. apply Hv. by right.
  Qed.

  (** destruction of the temporary flyweight of the load *)
  Lemma calling_destroy S t x tmp pc seen (Q : lstate → Prop) : allowed t → reachable (ld_core S) →
    target (ld_core S) (ld_tab S) t x → tmp ∉ ld_tab S → tmp ≠ x → tab_ok (ld_core S) (ld_tab S) seen →
    (∀ s', reachable s' → target s' (ld_tab S) t x → value_of s' x = value_of (ld_core S) x →
       tab_ok s' (ld_tab S) seen → vars s' !! tmp = None →
       Q (LState FS s' (ld_tab S) (ld_in S) pc (ld_made S) (ld_gone S) (ld_rets S))) →
    match calling P FS cfg S t (ODestroy tmp) pc with Ok S' => Q S' | Blocked => True | Bad => False end.
  Proof.
    intros Hal Hr HX Htt Htx HT HQ. unfold calling.
    pose proof (core_ok P FS cfg eqv good Heq HP HF t0 _ (LStart t (ODestroy tmp)) Hr Hal) as Hc.
    destruct (core_step P FS cfg (ld_core S) _) as [s'| |]; [|done|done]. destruct Hc as [Hs Hr'].
    destruct (destroy_step P FS cfg eqv good Heq HP HF t0 _ _ _ _ Hr Hal Hs) as [Hv Ho].
    apply HQ; [done| |by rewrite Ho| |].
    - destruct HX as (?&?&kx&Hkx). split_and!; [done|done|]. exists kx. unfold CoreSpec.key_of in *. by rewrite Ho.
    - eapply tab_values; [|done]. intros y Hy. apply Ho. by intros ->.
    - by rewrite Hv, lookup_delete.
  Qed.

  Lemma lrel_next S seen0 in0 v0 thr z junk : LRel S seen0 in0 v0 →
    match lstep P FS cfg ci ck arg S (LNext thr z junk) with
    | Ok S' => ld_pc S ≠ PIdle ∧ post S seen0 in0 v0 S'
    | Blocked => True
    | Bad => False
    end.
  Proof.
    intros [Hr HS]. unfold lstep, lnext.
    destruct (ld_pc S) as [|t x tmp n|t x tmp n|t x tmp n k|t x tmp n k|t x tmp n|t x tmp n|t x tmp|t x tmp n|t x tmp n|t x tmp n|t x tmp n]
      eqn:Epc; simpl; [done|destruct (stack (ld_core S) t) eqn:Hst; [|done]..].
    - destruct HS as (HX&HV&HN&HT&Hn&Hd&Hmg). destruct thr.
      + split; [done|]. right; right. exists x. simpl. split_and!; [done..|]. intros v. split; [done|]. simpl. done.
      + split; [done|]. left. split; [done|]. split; [done|]. simpl. split_and!; try done; try lia.
    - destruct HS as (HX&HV&HN&HT&Hn&Hd&Hmg).
      destruct (if thr then None else dec ck (ld_in S)) as [[k i]|] eqn:Ed.
      + destruct thr; [done|]. unfold calling. simpl.
        pose proof (core_ok P FS cfg eqv good Heq HP HF t0 _ (LStart t (ONew tmp (arg k) [])) Hr (proj1 HX)) as Hc.
        destruct (core_step P FS cfg (ld_core S) _) as [s'| |]; [|done|done]. destruct Hc as [Hs Hr'].
        split; [done|]. left. split; [done|]. split; [done|]. simpl.
        assert (Hal : allowed (label_tid (LStart t (ONew tmp (arg k) [])))) by apply HX.
        assert (Hwx : writes x (LStart t (ONew tmp (arg k) [])) = false).
        { simpl. apply bool_decide_eq_false. intros ->. destruct HX as (_&_&k'&Hk'). unfold CoreSpec.key_of, value_of in Hk'.
          by rewrite HN in Hk'. }
        assert (Htt : tmp ∉ ld_tab S) by (by eapply none_stands).
        split_and!; [by eapply (target_keep _ _ _ Hr Hal Hs)|by eapply (val_keep _ _ _ Hr Hal Hs)| |done| | |done| |done].
        * eapply building_start; [done|]. intros r. apply Harg.
        * intros ->. simpl in Hwx. by apply bool_decide_eq_false in Hwx.
        * eapply (tab_keep _ _ _ Hr Hal Hs); [|done]. intros z' Hz'. simpl. apply bool_decide_eq_false. by intros ->.
        * unfold SerializeSpec.read. by rewrite Hd, decide_True, Ed.
      + split; [done|]. right; right. exists x. simpl. split_and!; [done..|]. intros v. split; [done|]. simpl.
        split_and!; try done; try lia.
    - destruct HS as (HX&HV&HB&Htt&Htx&HT&Hn&Hd&Hmg).
      destruct (building_end P FS cfg eqv t0 _ _ _ _ Hr HB Hst) as [Hno|(k'&Hk'&Ek)].
      + rewrite Hno. split; [done|]. right; right. exists x. simpl. split_and!; [done..|]. intros v. split; [done|].
        simpl. split_and!; try done; try lia.
      + assert (∃ o, vars (ld_core S) !! tmp = Some o) as [o ->].
        { unfold CoreSpec.key_of, value_of in Hk'. destruct (vars (ld_core S) !! tmp); [by eauto|done]. }
        split; [done|]. left. split; [done|]. split; [done|]. simpl. split_and!; try done. by exists k'.
    - destruct HS as (HX&HV&HB&Htt&Htx&HT&Hn&Hd&Hmg). destruct thr.
      + apply (calling_destroy S t x tmp (PFail t x tmp) seen0 (λ S', _ ∧ post S seen0 in0 v0 S') (proj1 HX) Hr HX Htt Htx HT). intros s' Hr' HX' HV' HT' Hno.
        split; [done|]. left. split; [done|]. split; [done|]. simpl. split_and!; try done. congruence.
      + unfold calling.
        pose proof (core_ok P FS cfg eqv good Heq HP HF t0 _ (LStart t (OCopy z tmp)) Hr (proj1 HX)) as Hc.
        destruct (core_step P FS cfg (ld_core S) _) as [s'| |]; [|done|done]. destruct Hc as [Hs Hr'].
        destruct (copy_step P FS cfg eqv good Heq HP HF t0 _ _ _ _ _ Hr (proj1 HX) Hs) as (Hz&_&Ho&_).
        assert (Hzn : vars (ld_core S) !! z = None).
        { simpl in Hs. rewrite Hst in Hs. simpl in Hs. by destruct (vars (ld_core S) !! z). }
        assert (Hzt : z ∉ ld_tab S) by (by eapply none_stands).
        assert (Hzl : ∀ y k, key_of (ld_core S) y = Some k → y ≠ z).
        { intros y k1 Hk ->. unfold CoreSpec.key_of, value_of in Hk. by rewrite Hzn in Hk. }
        destruct HX as (Hal&HX2&kx&Hkx). destruct HB as (kt&Hkt&Ekt).
        pose proof (Hzl _ _ Hkx) as Hxz. pose proof (Hzl _ _ Hkt) as Htz.
        split; [done|]. left. split; [done|]. split; [done|]. simpl. split.
        * split_and!; [done| |].
          -- rewrite elem_of_app, elem_of_list_singleton. intros [?|?]; done.
          -- exists kx. unfold CoreSpec.key_of in *. by rewrite Ho.
        * exists k. split_and!; [|done| |done|done|done].
          -- rewrite elem_of_app, elem_of_list_singleton. intros [?|?]; done.
          -- apply Forall2_app.
             ++ eapply tab_values; [|done]. intros y Hy. apply Ho. by intros ->.
             ++ constructor; [|constructor]. exists kt. split; [|done]. unfold CoreSpec.key_of in *. by rewrite Hz.
    - destruct HS as (HX&k&Htt&Htx&HT&Hn&Hd&Hmg).
      apply (calling_destroy S t x tmp (PKill t x tmp n) _ (λ S', _ ∧ post S seen0 in0 v0 S') (proj1 HX) Hr HX Htt Htx HT). intros s' Hr' HX' HV' HT' Hno.
      split; [done|]. left. split; [done|]. split; [done|]. simpl. split; [done|]. by exists k.
    - destruct HS as (HX&k&HN&HT&Hn&Hd&Hmg). split; [done|]. left. split; [done|]. split; [done|]. simpl. split; [done|].
      exists k, (seen0 ++ [k]). split_and!; try done; try lia. subst n. by rewrite list_lookup_middle.
    - destruct HS as (HX&HV&HN&HT&Hmg). split; [done|]. right; right. exists x. simpl. split_and!; [done..|]. intros v.
      split; [done|]. simpl. split_and!; try done; try lia.
    - destruct HS as (HX&k&seen&HN&HT&Hk&Hd&Hmg).
      destruct (ld_tab S !! n) as [y|] eqn:Hy.
      2: { apply lookup_lt_Some in Hk. apply lookup_ge_None in Hy. pose proof (Forall2_length _ _ _ HT). lia. }
      unfold calling.
      pose proof (core_ok P FS cfg eqv good Heq HP HF t0 _ (LStart t (OCopy tmp y)) Hr (proj1 HX)) as Hc.
      destruct (core_step P FS cfg (ld_core S) _) as [s'| |]; [|done|done]. destruct Hc as [Hs Hr'].
      destruct (copy_step P FS cfg eqv good Heq HP HF t0 _ _ _ _ _ Hr (proj1 HX) Hs) as (Hz&_&Ho&_).
      assert (Htt : tmp ∉ ld_tab S) by (by eapply none_stands).
      assert (Htx : tmp ≠ x).
      { intros ->. destruct HX as (_&_&k'&Hk'). unfold CoreSpec.key_of, value_of in Hk'. by rewrite HN in Hk'. }
      destruct (stands_tab _ _ _ _ _ _ HT Hk Hy) as (ky&Hky&Eky).
      split; [done|]. left. split; [done|]. split; [done|]. simpl. split.
      + destruct HX as (?&?&kx&Hkx). split_and!; [done|done|]. exists kx. unfold CoreSpec.key_of in *. by rewrite Ho.
      + exists k, seen. split_and!; try done.
        * exists ky. split; [|done]. unfold CoreSpec.key_of in *. by rewrite Hz.
        * eapply tab_values; [|done]. intros y' Hy'. apply Ho. by intros ->.
    - destruct HS as (HX&k&seen&HB&Htt&Htx&HT&Hd&Hmg). unfold calling.
      pose proof (core_ok P FS cfg eqv good Heq HP HF t0 _ (LStart t (OAssign x tmp)) Hr (proj1 HX)) as Hc.
      destruct (core_step P FS cfg (ld_core S) _) as [s'| |]; [|done|done]. destruct Hc as [Hs Hr'].
      destruct (assign_step P FS cfg eqv good Heq HP HF t0 _ _ _ _ _ Hr (proj1 HX) Hs) as (Hz&_&Ho).
      destruct HB as (kt&Hkt&Ekt).
      assert (Hkx : key_of s' x = Some kt) by (unfold CoreSpec.key_of in *; by rewrite Hz).
      split; [done|]. left. split; [done|]. split; [done|]. simpl. split.
      + destruct HX as (?&?&_). split_and!; [done|done|by eauto].
      + exists k, seen. split_and!; try done.
        * by exists kt.
        * eapply tab_values; [|done]. intros y Hy. apply Ho. intros ->. by apply HX in Hy.
    - destruct HS as (HX&k&seen&HB&Htt&Htx&HT&Hd&Hmg).
      apply (calling_destroy S t x tmp (PReturn t x tmp n) _ (λ S', _ ∧ post S seen0 in0 v0 S') (proj1 HX) Hr HX Htt Htx HT). intros s' Hr' HX' HV' HT' Hno.
      split; [done|]. left. split; [done|]. split; [done|]. simpl. split; [done|]. exists k, seen. split_and!; try done.
      destruct HB as (kx&Hkx&Ekx). exists kx. split; [|done]. unfold CoreSpec.key_of in *. by rewrite HV'.
    - destruct HS as (HX&k&seen&HB&HN&HT&Hd&Hmg). split; [done|]. right; left. exists x, k, seen. simpl.
      split_and!; [done..|]. intros v. split; [done|]. simpl. done.
  Qed.

  Definition lallowed (l : llabel (A:=A) (W:=W)) : Prop :=
    match l with LCore l => allowed (label_tid l) | LBegin t _ _ => allowed t | LNext _ _ _ => True end.
  Lemma lsched_allowed ls : lsched_ok cfg t0 ls → Forall lallowed ls.
  Proof.
    intros H. destruct (lck cfg) eqn:E.
    - apply Forall_forall. intros l _. destruct l; simpl; try done; unfold CoreStep.allowed; congruence.
    - eapply Forall_impl; [by apply H|]. intros [l|t x tmp|thr z junk]; simpl; unfold CoreStep.allowed; done.
  Qed.

  Lemma lrel_any S seen0 in0 v0 v : ld_pc S = PIdle → LRel S seen0 in0 v0 → LRel S seen0 in0 v.
  Proof. intros E [Hr HS]. split; [done|]. rewrite E in *. done. Qed.

  Lemma lrel_step S seen0 in0 v0 l : LRel S seen0 in0 v0 → lallowed l →
    match lstep P FS cfg ci ck arg S l with
    | Ok S' => ∃ v1, (ld_pc S ≠ PIdle → v1 = v0) ∧
        (∀ t x tmp, l = LBegin t x tmp → v1 = value_of (ld_core S) x) ∧ post S seen0 in0 v1 S'
    | Blocked => True
    | Bad => False
    end.
  Proof.
    intros HS Hal. destruct l as [l|t x tmp|thr z junk].
    - pose proof (lrel_core S seen0 in0 v0 l HS Hal) as H.
      destruct (lstep P FS cfg ci ck arg S (LCore l)) as [S'| |]; [|done|done].
      exists v0. split_and!; [done|done|]. left. by destruct H.
    - pose proof (lrel_begin S seen0 in0 v0 t x tmp HS Hal) as H.
      destruct (lstep P FS cfg ci ck arg S (LBegin t x tmp)) as [S'| |]; [|done|done]. destruct H as [Hpc H].
      exists (value_of (ld_core S) x). split_and!; [done| |done]. by intros ??? [= _ -> _].
    - pose proof (lrel_next S seen0 in0 v0 thr z junk HS) as H.
      destruct (lstep P FS cfg ci ck arg S (LNext thr z junk)) as [S'| |]; [|done|done]. destruct H as [Hpc H].
      exists v0. by split_and!.
  Qed.

  Lemma lrel_run ls : ∀ S seen0 in0 v0, LRel S seen0 in0 v0 → Forall lallowed ls →
    ∃ S', lrun P FS cfg ci ck arg S ls = Ok S' ∧ (∃ seen in' v, LRel S' seen in' v) ∧
    ∀ ks rest, loaded P FS cfg ci ck arg S ls = map Some ks ++ rest →
      Forall2 (λ a b, eqv a b = true) ks (reads ci ck seen0 in0 (length ks)).
  Proof.
    induction ls as [|l ls IH]; intros S seen0 in0 v0 HS Hal; cbn [lrun loaded].
    { exists S. split_and!; [done|by eauto|]. intros [|k ks] rest E; [constructor|done]. }
    apply Forall_cons in Hal as [H1 H2].
    pose proof (lrel_step S seen0 in0 v0 l HS H1) as Hl.
    destruct (lstep P FS cfg ci ck arg S l) as [S1| |]; [|by eapply IH|by destruct Hl].
    destruct Hl as (v1&_&_&[[Hre HR]|[(x&k&seen&Hre&Hread&Hst&Hpc&HR)|(x&Hre&_&Hpc&HR)]]).
    - destruct (IH S1 _ _ _ HR H2) as (S'&Hr&HR'&HL). exists S'. split_and!; [done|done|].
      rewrite Hre, decide_True by done. simpl. done.
    - destruct (IH S1 _ _ None (HR None) H2) as (S'&Hr&HR'&HL). exists S'. split_and!; [done|done|].
      rewrite Hre, decide_False by (simpl; lia). destruct Hst as (k'&->&Ek). simpl. intros [|k1 ks] rest E; [constructor|].
      simpl in E. injection E as <- E. simpl. rewrite Hread. constructor; [done|]. by eapply HL.
    - destruct (IH S1 _ _ None (HR None) H2) as (S'&Hr&HR'&HL). exists S'. split_and!; [done|done|].
      rewrite Hre, decide_False by (simpl; lia). simpl. intros [|k1 ks] rest E; [constructor|done].
  Qed.

  Lemma lrel_init s i : reachable s → LRel (linit FS s i) [] i None.
  Proof. intros Hr. split; [done|]. simpl. by split_and!; [constructor|..]. Qed.

  (** while the load of [x] is in progress nothing is returned and the
      invariant keeps the value of [x] at the start *)
  Lemma in_progress ls : ∀ S seen0 in0 v0 S', LRel S seen0 in0 v0 → ld_pc S ≠ PIdle → Forall lallowed ls →
    lrun P FS cfg ci ck arg S ls = Ok S' → length (ld_rets S') = length (ld_rets S) →
    LRel S' seen0 in0 v0 ∧ ld_rets S' = ld_rets S ∧ ld_pc S' ≠ PIdle.
  Proof.
    assert (Hmono : ∀ ls S S', lrun P FS cfg ci ck arg S ls = Ok S' → length (ld_rets S) ≤ length (ld_rets S')).
    { intros ls'. induction ls' as [|l ls' IH]; intros S S'; cbn [lrun]; [by intros [= ->]|].
      destruct (lstep P FS cfg ci ck arg S l) as [S1| |] eqn:E; [|by apply IH|done]. intros H%IH.
      assert (length (ld_rets S) ≤ length (ld_rets S1)); [|lia]. clear H.
      destruct l; simpl in E; unfold lnext, calling, with_tab, done, goto in E; repeat case_match; simplify_eq; simpl; lia. }
    induction ls as [|l ls IH]; intros S seen0 in0 v0 S' HS Hpc Hal; cbn [lrun]; [by intros [= ->]|].
    apply Forall_cons in Hal as [H1 H2]. pose proof (lrel_step S seen0 in0 v0 l HS H1) as Hl.
    destruct (lstep P FS cfg ci ck arg S l) as [S1| |] eqn:E; [|by apply IH|done]. intros Hrun Hlen.
    pose proof (Hmono _ _ _ Hrun) as Hm.
    destruct Hl as (v1&Hv&_&[[Hre HR]|[(x&k&seen&Hre&_)|(x&Hre&_)]]); [|rewrite Hre in Hm; simpl in Hm; lia..].
    rewrite Hv in HR by done. rewrite <- Hre in *. apply (IH S1 _ _ _ _ HR); [|done|done|done].
    destruct l; simpl in E; unfold lnext, calling, with_tab, done, goto in E; repeat case_match; simplify_eq; simpl in *; try done;
      exfalso; clear -Hre; by apply (f_equal length) in Hre; simpl in Hre; lia.
  Qed.

  Lemma target_step S l S' x tmp : lstep P FS cfg ci ck arg S l = Ok S' → pc_vars (ld_pc S) = [x; tmp] →
    (ld_rets S' = ld_rets S ∧ pc_vars (ld_pc S') = [x; tmp]) ∨ ∃ b, ld_rets S' = (x, b) :: ld_rets S.
  Proof.
    intros E Hx. destruct l; simpl in E; unfold lnext, calling, with_tab, done, goto in E; repeat case_match;
      simplify_eq; simpl in *; simplify_eq; eauto.
  Qed.

  (** the temporary flyweight is gone when the load ends *)
  Lemma tmp_gone S seen0 in0 v0 l S' x tmp b : LRel S seen0 in0 v0 → lstep P FS cfg ci ck arg S l = Ok S' →
    pc_vars (ld_pc S) = [x; tmp] → ld_rets S' = (x, b) :: ld_rets S → vars (ld_core S') !! tmp = None.
  Proof.
    intros [_ HS] E Hx Hre.
    assert (Hne : ld_rets S' ≠ ld_rets S).
    { intros H. rewrite H in Hre. by apply (f_equal length) in Hre; simpl in Hre; lia. } clear Hre.
    destruct (ld_pc S) eqn:Epc; simpl in Hx; simplify_eq; destruct l; simpl in E; rewrite Epc in E; simpl in E;
      unfold lnext, calling, with_tab, done, goto in E; rewrite ?Epc in E; repeat case_match; simplify_eq; simpl in *; naive_solver.
  Qed.

  Lemma target_run ls : ∀ S S' x tmp, lrun P FS cfg ci ck arg S ls = Ok S' → pc_vars (ld_pc S) = [x; tmp] →
    length (ld_rets S') = length (ld_rets S) → ld_rets S' = ld_rets S ∧ pc_vars (ld_pc S') = [x; tmp].
  Proof.
    assert (Hmono : ∀ ls S S', lrun P FS cfg ci ck arg S ls = Ok S' → length (ld_rets S) ≤ length (ld_rets S')).
    { intros ls'. induction ls' as [|l ls' IH]; intros S S'; cbn [lrun]; [by intros [= ->]|].
      destruct (lstep P FS cfg ci ck arg S l) as [S1| |] eqn:E; [|by apply IH|done]. intros H%IH.
      assert (length (ld_rets S) ≤ length (ld_rets S1)); [|lia]. clear H.
      destruct l; simpl in E; unfold lnext, calling, with_tab, done, goto in E; repeat case_match; simplify_eq; simpl; lia. }
    induction ls as [|l ls IH]; intros S S' x tmp; cbn [lrun]; [by intros [= ->]|].
    destruct (lstep P FS cfg ci ck arg S l) as [S1| |] eqn:E; [|by apply IH|done]. intros Hrun Hx Hlen.
    destruct (target_step _ _ _ _ _ E Hx) as [[Hre Hx1]|[b Hre]].
    - rewrite <- Hre in *. by apply IH.
    - apply Hmono in Hrun. rewrite Hre in Hrun. simpl in Hrun. lia.
  Qed.

  (** the whole of one load, in any state and with any input *)
  Lemma load_call ls0 i s S t x tmp S1 ls S2 l S3 y b : reachable s → Forall lallowed ls0 →
    lrun P FS cfg ci ck arg (linit FS s i) ls0 = Ok S → allowed t →
    lstep P FS cfg ci ck arg S (LBegin t x tmp) = Ok S1 →
    (S3 = S1 ∨ lrun P FS cfg ci ck arg S1 ls = Ok S2 ∧ Forall lallowed (l :: ls) ∧
       ld_rets S2 = ld_rets S ∧ ld_rets S1 = ld_rets S ∧ lstep P FS cfg ci ck arg S2 l = Ok S3) →
    ld_rets S3 = (y, b) :: ld_rets S →
    y = x ∧ ld_made S3 = ld_gone S3 ∧ vars (ld_core S3) !! tmp = None ∧
    ∃ seen, tab_ok (ld_core S) (ld_tab S) seen ∧
    if b then ∃ k seen' kx, read seen (ld_in S) = Some (k, seen', ld_in S3) ∧
         key_of (ld_core S3) x = Some kx ∧ eqv kx k = true ∧ tab_ok (ld_core S3) (ld_tab S3) seen'
    else value_of (ld_core S3) x = value_of (ld_core S) x ∧ tab_ok (ld_core S3) (ld_tab S3) seen.
  Proof.
    intros Hr Hal0 Hrun0 Hal Hb H3 Hre3.
    destruct (lrel_run ls0 (linit FS s i) [] i None (lrel_init s i Hr) Hal0) as (S0&E0&(seen&in0&v0&HR)&_).
    rewrite Hrun0 in E0. injection E0 as <-.
    assert (Hpc : ld_pc S = PIdle) by (simpl in Hb; by destruct (ld_pc S)).
    pose proof HR as [_ Hidle]. rewrite Hpc in Hidle. destruct Hidle as (HT0&<-&_).
    pose proof (lrel_begin S _ _ _ t x tmp HR Hal) as Hb'. rewrite Hb in Hb'. destruct Hb' as [_ Hpost].
    assert (Hx1 : (ld_rets S1 = ld_rets S ∧ pc_vars (ld_pc S1) = [x; tmp]) ∨
                  ∃ b, ld_rets S1 = (x, b) :: ld_rets S ∧ vars (ld_core S1) !! tmp = None).
    { simpl in Hb. unfold done, goto in Hb. repeat case_match; simplify_eq; simpl; eauto. }
    assert (Hfin : ∀ S' S3, ld_rets S' = ld_rets S → post S' seen (ld_in S) (value_of (ld_core S) x) S3 →
       ld_rets S3 = (x, b) :: ld_rets S → vars (ld_core S3) !! tmp = None →
       ld_made S3 = ld_gone S3 ∧ vars (ld_core S3) !! tmp = None ∧
       ∃ seen, tab_ok (ld_core S) (ld_tab S) seen ∧
       if b then ∃ k seen' kx, read seen (ld_in S) = Some (k, seen', ld_in S3) ∧
         key_of (ld_core S3) x = Some kx ∧ eqv kx k = true ∧ tab_ok (ld_core S3) (ld_tab S3) seen'
       else value_of (ld_core S3) x = value_of (ld_core S) x ∧ tab_ok (ld_core S3) (ld_tab S3) seen).
    { clear -HT0. intros S' S3 E' Hpost Hre Htmp.
      destruct Hpost as [[E _]|[(z&k&seen1&E&Hread&(kx&Hkx&Ek)&Hpc&HR)|(z&E&Hv&Hpc&HR)]].
      - exfalso. rewrite E, E' in Hre. by apply (f_equal length) in Hre; simpl in Hre; lia.
      - rewrite E, E' in Hre. injection Hre as -> <-. destruct (HR None) as [_ HR']. rewrite Hpc in HR'.
        destruct HR' as (HT&_&Hmg). split_and!; [done|done|]. exists seen. split; [done|]. exists k, seen1, kx. by split_and!.
      - rewrite E, E' in Hre. injection Hre as -> <-. destruct (HR None) as [_ HR']. rewrite Hpc in HR'.
        destruct HR' as (HT&_&Hmg). split_and!; [done|done|]. by exists seen. }
    destruct H3 as [->|(Hrun&Hls&Hre2&Hre1&Hl)].
    - destruct Hx1 as [[E _]|(b'&E&Htmp)].
      { exfalso. rewrite E in Hre3. by apply (f_equal length) in Hre3; simpl in Hre3; lia. }
      assert (y = x) as -> by congruence. split; [done|]. by apply (Hfin S S1).
    - destruct Hx1 as [[_ Hx1]|(b'&E&_)].
      2: { exfalso. rewrite E in Hre1. by apply (f_equal length) in Hre1; simpl in Hre1; lia. }
      apply Forall_cons in Hls as [Hl1 Hls].
      destruct Hpost as [[_ HR1]|[(z&k&seen1&E&_)|(z&E&_)]];
        [|exfalso; rewrite E in Hre1; by apply (f_equal length) in Hre1; simpl in Hre1; lia..].
      destruct (in_progress ls S1 _ _ _ S2 HR1) as (HR2&_&Hpc2); [|done|done|congruence|].
      { intros E. by rewrite E in Hx1. }
      destruct (target_run ls S1 S2 x tmp Hrun Hx1) as [_ Hx2]; [congruence|].
      destruct (target_step _ _ _ _ _ Hl Hx2) as [[E _]|[b' E]].
      { exfalso. rewrite E, Hre2 in Hre3. by apply (f_equal length) in Hre3; simpl in Hre3; lia. }
      assert (y = x) as -> by congruence. split; [done|].
      pose proof (lrel_step S2 _ _ _ l HR2 Hl1) as Hp. rewrite Hl in Hp. destruct Hp as (v1&Hv1&_&Hp).
      rewrite Hv1 in Hp by done. apply (Hfin S2 S3); [done|done|done|]. by eapply (tmp_gone S2 _ _ _ _ _ _ _ _ HR2 Hl Hx2).
  Qed.

  Lemma never_bad s i ls : reachable s → lsched_ok cfg t0 ls →
    ∃ S, lrun P FS cfg ci ck arg (linit FS s i) ls = Ok S ∧
      (ld_pc S = PIdle → ld_made S = ld_gone S) ∧ ld_gone S ≤ ld_made S ≤ ld_gone S + 1.
  Proof.
    intros Hr Hok. destruct (lrel_run ls (linit FS s i) [] i None (lrel_init s i Hr) (lsched_allowed ls Hok))
      as (S&HS&(seen&in'&v&_&HR)&_). exists S. split; [done|]. destruct (ld_pc S); try naive_solver lia; destruct HR as (_&HR);
      naive_solver lia.
  Qed.

  (** *** reading back a canonical archive *)
  Lemma reads_canon tail m : codec_ok ci → codec_ok ck → ∀ ks seen, m ≤ length ks →
    Forall2 (λ a b, eqv a b = true) (reads ci ck seen (concat (map (words ci ck) (canon eqv seen ks)) ++ tail) m) (take m ks).
  Proof.
    intros Hci Hck. induction m as [|m IH]; intros ks seen Hm; simpl; [constructor|].
    destruct ks as [|k ks]; simpl in *; [lia|]. destruct (class eqv seen k) as [j|] eqn:Ec; simpl.
    - unfold words at 1. simpl. rewrite app_nil_r, <- !app_assoc.
      destruct (class_lookup _ _ _ _ Ec) as (k'&Hj&Ek). unfold SerializeSpec.read. rewrite Hci.
      rewrite decide_False by (apply lookup_lt_Some in Hj; lia). rewrite Hj. constructor; [done|]. apply IH. lia.
    - unfold words at 1. simpl. rewrite <- !app_assoc. unfold SerializeSpec.read. rewrite Hci, decide_True, Hck by done.
      constructor; [by apply (eqv_refl _ Heq)|]. apply IH. lia.
  Qed.
End Load.

(** *** shape of a canonical archive *)
Section Shape.
  Context {K : Type} (eqv : K → K → bool).
  Lemma canon_keys ks : ∀ seen, seen ++ omap snd (canon eqv seen ks) = classes eqv seen ks.
  Proof.
    induction ks as [|k ks IH]; intros seen; simpl; [by rewrite app_nil_r|].
    destruct (class eqv seen k); simpl; [apply IH|]. rewrite <- IH. by rewrite <- app_assoc.
  Qed.
  Lemma canon_distinct ks : ∀ seen i j k k',
    (∀ i j k k', seen !! i = Some k → seen !! j = Some k' → i < j → eqv k k' = false) →
    classes eqv seen ks !! i = Some k → classes eqv seen ks !! j = Some k' → i < j → eqv k k' = false.
  Proof.
    induction ks as [|k0 ks IH]; intros seen i j k k' Hs; simpl; [by apply Hs|].
    destruct (class eqv seen k0) eqn:Ec; [by apply IH|]. apply IH. intros i1 j1 k1 k2 H1 H2 Hlt.
    assert (Hj : j1 < length (seen ++ [k0])) by (by eapply lookup_lt_Some). rewrite app_length in Hj. simpl in Hj.
    rewrite lookup_app_l in H1 by lia. destruct (decide (j1 < length seen)).
    - rewrite lookup_app_l in H2 by lia. by eapply Hs.
    - rewrite lookup_app_r in H2 by lia. replace (j1 - length seen) with 0 in H2 by lia. simpl in H2. injection H2 as <-.
      apply (proj1 (class_none eqv seen k0) Ec). by eapply elem_of_list_lookup_2.
  Qed.
  Lemma canon_index pre post n o : ∀ ks seen, canon eqv seen ks = pre ++ (n, o) :: post →
    if o then n = length (seen ++ omap snd pre) else n < length (seen ++ omap snd pre).
  Proof.
    induction pre as [|[n1 o1] pre IH]; intros [|k ks] seen; simpl; try done; destruct (class eqv seen k) eqn:Ec; simpl.
    - intros [= <- <- _]. rewrite app_nil_r. destruct (class_lookup _ _ _ _ Ec) as (k'&H&_). by eapply lookup_lt_Some.
    - intros H. injection H as H1 H2 _. subst. by rewrite app_nil_r.
    - intros H. injection H as _ H2 H. subst o1. simpl. by eapply IH.
    - intros H. injection H as _ H2 H. subst o1. simpl. apply IH in H. by rewrite <- app_assoc in H.
  Qed.
End Shape.
