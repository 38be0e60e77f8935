(** C82: what is stored for a program with concurrent_factory.  Whenever no call is
    in progress and nobody else has flyweights, enough passes of the garbage collector
    leave one entry for each different value among the objects of the program and
    the parts of these values, and no other. *)
From Verif Require Import PropInner Client.
From Verif Require Import PropConcurrent ConClient.
From Verif Require Import PropConHeld ConcurrentGc.
From Verif Require Import ConcurrentProofs ConcurrentLive PropConClient.
From Verif Require Team PropTeam ConTeam PropConTeam PropConParallel PropStored.
Notation part := PropStored.part.

Section Stored.
  Context {K A R V L O : Type}.
  Context (P : Core.policy K A R V) (eqv : K → K → bool) (good : R → Prop).
  Context (Heq : equivalence eqv) (HP : policy_ok eqv good P).
  Context `{EqDecision L} (lab : R → L).
  Context (Hkey : ∀ r r', eqv (p_key P r) (p_key P r') = bool_decide (lab r = lab r') && bool_decide (p_kids P r = p_kids P r')).
  Context (own : var → Prop) (makes : A → nat → L → Prop).
  Context (Hmakes : ∀ a ks l, makes a (length ks) l → ∃ r, p_make P a ks = Some r ∧ p_kids P r = ks ∧ lab r = l).
  Context (t : tid) (Ht : t ≠ gc_tid).
  Notation state := (state (K:=K) (A:=A) (R:=R)).
  Notation label := (label (A:=A)).
  Notation step := (step P eqv).
  Notation run := (run P eqv).
  Notation reachable := (reachable P eqv).
  Notation held := (held P).
  Notation cshows := (cshows P lab).
  Notation cagrees := (cagrees P lab own).
  Notation prog := (prog (A:=A) (L:=L) (O:=O)).
  Notation plain := (Client.plain (O:=O) own makes).
  Notation safe := (safe (O:=O) own makes).
  Notation cprun := (cprun P eqv lab t).
  Implicit Types (s : state) (M : gmap var (tree L)) (p : prog) (l : label).
  Definition calone s : Prop := ∀ y, is_Some (vars s !! y) → own y.
  Definition cstores s M : Prop :=
    (∀ T, (∃ a, cshows s a T) ↔ part M T) ∧ (∀ a b T U, cshows s a T → cshows s b U → (a = b ↔ T = U)) ∧
    (∀ a n, ents s !! a = Some n → ∃ T, cshows s a T) ∧ ∀ ts, NoDup ts → (∀ T, part M T ↔ T ∈ ts) → size (ents s) = length ts.
  (** [ls]: the collector's work, in as many passes as there are entries that
      nothing holds (one more if it is in the middle of one) *)
  Definition enough s (ls : list label) : Prop :=
    Forall gc_label ls ∧ ∃ G, garbage P s G ∧ (size G < passes P eqv s ls ∨ (todo s = None ∧ size G ≤ passes P eqv s ls)).

  Lemma gc_vars ls : ∀ s s', Inv P eqv good s → Forall gc_label ls → run s ls = Next s' → vars s' = vars s.
  Proof using Heq HP.
    induction ls as [|l ls IH]; intros s s' HI Hl Hr; simpl in *; [by simplify_eq|]. apply Forall_cons in Hl as [Hl Hls].
    destruct (step s l) as [s1| |] eqn:E; [|by apply (IH s s')|done].
    rewrite (IH s1 s'); [|by eapply (step_next P eqv good Heq HP)|done|done]. by eapply (gc_step P eqv good).
  Qed.
  Lemma held_shows s s' : (∀ a n, held s a → ents s !! a = Some n → ∃ n', ents s' !! a = Some n' ∧ n_rep n' = n_rep n) →
    ∀ T a, held s a → cshows s a T → cshows s' a T.
  Proof.
    intros Hkeep. induction T as [lb ts IH] using tree_ind'. intros a Ha HT. inversion HT as [h0 n ts0 Hn Hts]; subst.
    destruct (Hkeep a n Ha Hn) as (n'&Hn'&E). rewrite <- E. constructor; [done|]. rewrite E.
    assert (Hk : ∀ b, b ∈ p_kids P (n_rep n) → held s b) by (intros b Hb; by eapply held_kid).
    clear -IH Hk Hts. revert IH Hk. induction Hts as [|b T ks ts Hb _ IHt]; intros IH Hk; constructor.
    - apply Forall_cons in IH as [H1 _]. apply H1; [apply Hk; left|done].
    - apply Forall_cons in IH as [_ H2]. apply IHt; [done|]. intros c Hc. apply Hk. by right.
  Qed.
  (** the collector does not change what the objects are *)
  Lemma gc_agrees s M gs s' : reachable s → idle s → cagrees s M → Forall gc_label gs → run s gs = Next s' → vars s' = vars s ∧ cagrees s' M.
  Proof using Heq HP.
    intros Hre Hid [Ha Hown] Hgl Hr. pose proof (gc_vars gs s s' (reach_inv P eqv good Heq HP s Hre) Hgl Hr) as Hv. split; [done|]. split; [|done].
    destruct (C73_keeps P eqv good Heq HP s gs s' Hre Hid Hgl Hr) as [_ Hkeep].
    intros x Hx. specialize (Ha x Hx). destruct (M !! x) as [T|]; simpl in *; [|by rewrite Hv]. destruct Ha as ([h r]&Hval&Hs). unfold value_of in Hval.
    destruct (vars s !! x) as [[h'|]|] eqn:Ex; [|done|done]. destruct (ents s !! h') as [n|] eqn:En; [|done]. simplify_eq. pose proof (held_var P s x h Ex) as Hh.
    destruct (Hkeep h n Hh En) as (n'&En'&Er). exists (h, n_rep n'). unfold value_of. rewrite Hv, Ex, En'. split; [done|]. by eapply held_shows.
  Qed.
  Lemma collected_stores s M gs s' : reachable s → idle s → calone s → cagrees s M → enough s gs → run s gs = Next s' → cstores s' M.
  Proof using Heq HP Hkey.
    intros Hre Hid Hal Hag (Hgl&G&HG&Hp) Hr. destruct (gc_agrees s M gs s' Hre Hid Hag Hgl Hr) as [Hv [Ha Hown]].
    destruct (C72_minimal P eqv good Heq HP lab Hkey s gs s' G Hre Hid HG Hgl Hr Hp) as (Q1&Q2&Q3).
    assert (HT : ∀ T, (∃ a, cshows s' a T) ↔ part M T).
    { intros T. rewrite Q3. split.
      - intros (y&v&W&path&Hval&HW&Hsub). assert (Hy : is_Some (vars s !! y)) by (unfold value_of in Hval; rewrite Hv in Hval; destruct (vars s !! y); [eauto|done]).
        pose proof (Ha y (Hal y Hy)) as Hd. destruct (M !! y) as [U|] eqn:EU; [|cbn in Hd; rewrite Hv in Hd; rewrite Hd in Hy; by destruct Hy].
        destruct Hd as (v'&Hv'&Hs'). assert (v' = v) as -> by congruence. assert (W = U) as -> by (by apply (Q2 v.1 v.1)). by exists y, U, path.
      - intros (y&U&path&EU&Hsub). pose proof (Ha y (Hown y (ex_intro _ _ EU))) as Hd. rewrite EU in Hd. destruct Hd as (v&Hval&Hs). by exists y, v, U, path. }
    split; [done|]. split; [done|]. split; [done|]. intros ts Hnd Hts. eapply (PropConParallel.centries_count P lab s'); [done|done|done|]. intros T. by rewrite HT.
  Qed.
  Theorem C82_stored s p M ls : reachable s → stack s t = [] → cagrees s M → safe p M → flat p → Forall (cforeign own t) ls →
    ∃ s' w p', cprun (s, false, p) ls = Some (s', w, p') ∧ reachable s' ∧
      (w = false → idle s' → calone s' → ∃ M', rtc (plain true) (p, M) (p', M') ∧ cagrees s' M' ∧
        ∀ gs s2, enough s' gs → run s' gs = Next s2 → cagrees s2 M' ∧ cstores s2 M').
  Proof using Heq HP Hkey Hmakes Ht.
    intros Hre Hst Hag Hsafe Hfl Hf.
    destruct (C72_transparent P eqv good Heq HP lab Hkey own makes Hmakes t Ht s p M ls) as (s'&w&p'&M'&E&Hre'&Hr&Hw); [done..|].
    exists s', w, p'. split; [done|]. split; [done|]. intros -> Hid Hal. destruct Hw as [_ Hag']. exists M'. split; [done|]. split; [done|].
    intros gs s2 Hgs Hrun. split; [by destruct Hgs as [Hgl _]; eapply (gc_agrees s' M' gs s2)|by eapply collected_stores].
  Qed.
  (** even while other threads have flyweights and are in the middle of calls, and the
      collector in a pass, each value and each part is in the container, once *)
  Theorem C82_once s p M ls : reachable s → stack s t = [] → cagrees s M → safe p M → flat p → Forall (cforeign own t) ls →
    ∃ s' w p', cprun (s, false, p) ls = Some (s', w, p') ∧ reachable s' ∧
      (w = false → ∃ M', rtc (plain true) (p, M) (p', M') ∧ cagrees s' M' ∧ ∀ T, part M' T → ∃ a, cshows s' a T ∧ ∀ b, cshows s' b T → b = a).
  Proof using Heq HP Hkey Hmakes Ht.
    intros Hre Hst Hag Hsafe Hfl Hf.
    destruct (C72_transparent P eqv good Heq HP lab Hkey own makes Hmakes t Ht s p M ls) as (s'&w&p'&M'&E&Hre'&Hr&Hw); [done..|].
    exists s', w, p'. split; [done|]. split; [done|]. intros ->. destruct Hw as [_ Hag']. exists M'. split; [done|]. split; [done|].
    pose proof (reach_inv P eqv good Heq HP s' Hre') as HI. intros T (x&U&path&Hx&Hsub). destruct Hag' as [Ha Hown].
    pose proof (Ha x (Hown x (ex_intro _ _ Hx))) as Hd. rewrite Hx in Hd. destruct Hd as ([h r]&Hv&Hs).
    unfold value_of in Hv. destruct (vars s' !! x) as [[h'|]|] eqn:Ex; [|done|done]. destruct (ents s' !! h') as [n|] eqn:En; [|done]. simplify_eq. simpl in Hs.
    destruct (within_shows P eqv good lab s' path HI h U T (cnt_var P s' x h Ex) Hs Hsub) as (h'&n'&_&_&HT&_).
    exists h'. split; [done|]. intros b Hb. by eapply cshows_inj.
  Qed.
  (** when the program has destroyed what it made, the collector empties the
      container *)
  Theorem C82_nothing s p ls s' w o gs s2 : reachable s → stack s t = [] → cagrees s ∅ → safe p ∅ → flat p → Forall (cforeign own t) ls →
    (∀ o M, rtc (plain true) (p, ∅) (Ret o, M) → M = ∅) → cprun (s, false, p) ls = Some (s', w, Ret o) → idle s' → calone s' →
    enough s' gs → run s' gs = Next s2 → ents s2 = ∅.
  Proof using Heq HP Hkey Hmakes Ht.
    intros Hre Hst Hag Hsafe Hfl Hf Hend E Hid Hal Hgs Hrun.
    destruct (C72_transparent P eqv good Heq HP lab Hkey own makes Hmakes t Ht s p ∅ ls) as (s3&w3&p3&M'&E3&Hre'&Hr&Hw); [done..|].
    rewrite E in E3. injection E3 as <- <- <-. destruct w; [by destruct Hw as (?&?&?)|]. destruct Hw as [_ Hag']. rewrite (Hend o M' Hr) in Hag'.
    destruct (collected_stores s' ∅ gs s2 Hre' Hid Hal Hag' Hgs Hrun) as (_&_&_&Hsz). apply map_size_empty_inv. apply (Hsz []); [constructor|].
    intros T. split; [intros (x&U&path&Hx&_); by rewrite lookup_empty in Hx|by intros ?%elem_of_nil].
  Qed.
  (** there are such passes *)
  Theorem C82_enough s : reachable s → idle s → ∃ gs s', enough s gs ∧ run s gs = Next s'.
  Proof using Heq HP.
    intros Hre Hid. destruct (C73_garbage P eqv good Heq HP s Hre) as (G&HG&_).
    destruct (C28_passes_complete P eqv good Heq HP s (S (size G)) Hre Hid) as (gs&s'&Hgl&Hr&Hp). exists gs, s'. split; [|done]. split; [done|]. exists G. split; [done|]. left. rewrite Hp. apply Nat.lt_succ_diag_r.
  Qed.
End Stored.

(** ** With teams of threads, one after another, as in C74 *)
Section Team.
  Context {K A R V L O : Type}.
  Context (P : Core.policy K A R V) (eqv : K → K → bool) (good : R → Prop).
  Context (Heq : equivalence eqv) (HP : policy_ok eqv good P).
  Context `{EqDecision L} (lab : R → L).
  Context (Hkey : ∀ r r', eqv (p_key P r) (p_key P r') = bool_decide (lab r = lab r') && bool_decide (p_kids P r = p_kids P r')).
  Context (makes : A → nat → L → Prop).
  Context (Hmakes : ∀ a ks l, makes a (length ks) l → ∃ r, p_make P a ks = Some r ∧ p_kids P r = ks ∧ lab r = l).
  Context (fine : O → bool) (Own : var → Prop) (sure : Prop) (cfg : Core.config) (t0 : tid).
  Theorem C82_team (s : state) M ps rest Q ls : reachable P eqv s → PropConTeam.con_team ps → Forall PropConTeam.con_team rest →
    (∀ u, is_Some (ps !! u) → stack s u = []) → cagrees P lab Own s M → PropTeam.stages_safe cfg t0 makes fine Own sure M ps rest Q →
    Forall (PropConTeam.coutsider Own) ls →
    ∃ s' ps' rest', ConTeam.cfrun P eqv lab fine (s, ps, rest) ls = Some (s', ps', rest') ∧
      (rest' = [] → Team.all_fine fine ps' = true → idle s' → calone Own s' →
        ∃ M', Q M' ∧ ∀ gs s2, enough P eqv s' gs → run P eqv s' gs = Next s2 → cagrees P lab Own s2 M' ∧ cstores P lab s2 M').
  Proof using Heq HP Hkey Hmakes.
    intros Hre Hc Hcr Hst Hag Hsafe Ho.
    destruct (PropConTeam.C74_stages P eqv good Heq HP lab Hkey makes Hmakes fine Own sure cfg t0 s M ps rest Q ls) as (s'&ps'&rest'&E&Hre'&_&_&Hend); [done..|].
    exists s', ps', rest'. split; [done|]. intros Hr Hfine Hid Hal. destruct (Hend Hr Hfine) as (_&M'&Hag'&HQ). exists M'. split; [done|].
    intros gs s2 Hgs Hrun. split; [destruct Hgs as [Hgl _]; by apply (gc_agrees P eqv good Heq HP lab Own s' M' gs s2)|
      by apply (collected_stores P eqv good Heq HP lab Hkey Own s' M' gs s2)].
  Qed.
End Team.

(** ** Example: the program of C72 alone ends with (2 1) and, twice, 1: of these and
    2 there are three entries after two passes, five before *)
Definition solo : list (conlab (A:=option nat)) := concat (replicate 120 [CGo; CEnv (LRun 1 false)]).
Example C82_at_work :
  match cprun PropStruct.cP PropStruct.ceq fst 1 (init, false, ccounts) solo with
  | Some (s, w, Ret _) => w = false ∧ stack s 1 = [] ∧ size (ents s) = 5 ∧ (map_to_list (vars s)).*1 ≡ₚ [1; 2; 5] ∧
      match run PropStruct.cP PropStruct.ceq s (tidy 2) with Next s2 => size (ents s2) = 3 ∧ passes PropStruct.cP PropStruct.ceq s (tidy 2) = 2 | _ => False end
  | _ => False
  end.
Proof.
  vm_compute. split_and!; try reflexivity. apply NoDup_Permutation; [repeat (constructor; [set_solver|]); constructor..|]. set_solver.
Qed.

(** two threads, with a third that makes and destroys an object of its own: what is
    stored in the end is 1, 2 and the pairs of these that the two have *)
Example C82_team_at_work :
  match ConTeam.cfrun PropStruct.cP PropStruct.ceq fst (λ _, true) (init, PropTeam.pteam, []) (ConTeam.CFTeam <$> PropConTeam.ccrowd) with
  | Some (s, ps, rest) => rest = [] ∧ Team.all_fine (λ _, true) ps = true ∧ stack s 1 = [] ∧ stack s 2 = [] ∧ stack s 3 = [] ∧
      (map_to_list (vars s)).*1 ≡ₚ [11; 12; 13; 21; 22; 23] ∧
      match run PropStruct.cP PropStruct.ceq s (tidy 2) with Next s2 => size (ents s2) = 4 ∧ passes PropStruct.cP PropStruct.ceq s (tidy 2) = 2 | _ => False end
  | _ => False
  end.
Proof.
  vm_compute. split_and!; try reflexivity. apply NoDup_Permutation; [repeat (constructor; [set_solver|]); constructor..|]. set_solver.
Qed.

Print Assumptions C82_stored.
Print Assumptions C82_nothing.
Print Assumptions C82_team.
Print Assumptions C82_enough.
Print Assumptions C82_once.
