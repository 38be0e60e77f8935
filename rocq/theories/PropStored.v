(** C81: what is stored for a program.  With tracking, whenever no call is in
    progress and nobody else has flyweights, there is one entry for each different
    value among the objects of the program and the parts of these values - taken
    from the same program with plain values - and no other. *)
From Verif Require Import SerializeProofs CoreRace Policies Instances PropInner Client PropClient PropTeam.
From Verif Require Import Factory.

(** [T] is the value of an object or a part of it *)
Definition part {L} (M : gmap var (tree L)) (T : tree L) : Prop := ∃ x U path, M !! x = Some U ∧ subtree U path = Some T.

Section Stored.
  Context {K A R V L O : Type}.
  Context (P : policy K A R V) (FS : factory K) (cfg : config).
  Context (eqv : K → K → bool) (good : R → Prop).
  Context (Heq : equivalence eqv) (HP : policy_ok eqv good P) (HF : factory_spec eqv FS).
  Context (t0 : tid).
  Context `{EqDecision L} (lab : R → L).
  Context (Hkey : ∀ r r', eqv (p_key P r) (p_key P r') = bool_decide (lab r = lab r') && bool_decide (p_kids P r = p_kids P r')).
  Context (own : var → Prop) (makes : A → nat → L → Prop).
  Context (Hmakes : ∀ a ks l, makes a (length ks) l → ∃ r, p_make P a ks = Some r ∧ p_kids P r = ks ∧ lab r = l).
  Context (t : tid) (Ht : lck cfg = false → t = t0).
  Notation state := (state (R:=R) (K:=K) (A:=A) FS).
  Notation reachable := (reachable P FS cfg t0).
  Notation shows := (shows P FS lab).
  Notation agrees := (agrees P FS lab own).
  Notation prog := (prog (A:=A) (L:=L) (O:=O)).
  Notation plain := (Client.plain (O:=O) own makes).
  Notation safe := (safe (O:=O) own makes).
  Notation prun := (prun P FS cfg lab t).
  Implicit Types (s : state) (M : gmap var (tree L)) (p : prog).
  (** all objects are the program's *)
  Definition alone s : Prop := ∀ y, is_Some (vars s !! y) → own y.
  (** exactly the parts of [M] are stored, once each *)
  Definition stores s M : Prop :=
    (∀ T, (∃ a, shows s a T) ↔ part M T) ∧ (∀ a b T U, shows s a T → shows s b U → (a = b ↔ T = U)) ∧
    (∀ a n, heap s !! a = Some n → ∃ T, shows s a T) ∧ ∀ ts, NoDup ts → (∀ T, part M T ↔ T ∈ ts) → size (heap s) = length ts.

  Lemma agrees_stores s M : trk cfg = true → reachable s → quiescent s → alone s → agrees s M → stores s M.
  Proof using Heq HP HF Hkey.
    intros Htr Hre Hq Hal [Ha Hown]. destruct (C64_minimal P FS cfg eqv good Heq HP HF t0 lab Hkey s Htr Hre Hq) as (Q1&Q2&Q3).
    assert (HT : ∀ T, (∃ a, shows s a T) ↔ part M T).
    { intros T. rewrite Q3. split.
      - intros (y&[h r]&W&path&Hv&HW&Hsub). pose proof Hv as Hy. apply (value_of_var P FS cfg eqv good HF t0) in Hy as (Hy&_); [|by apply (reach_inv P FS cfg eqv good Heq HP HF t0)].
        pose proof (Ha y (Hal y (ex_intro _ _ Hy))) as Hd. destruct (M !! y) as [U|] eqn:EU; [|cbn in Hd; congruence].
        destruct Hd as (v&Hv'&Hs'). rewrite Hv in Hv'. injection Hv' as <-. assert (W = U) as -> by (by apply (Q2 h h)). by exists y, U, path.
      - intros (y&U&path&EU&Hsub). pose proof (Ha y (Hown y (ex_intro _ _ EU))) as Hd. rewrite EU in Hd. destruct Hd as (v&Hv&Hs). by exists y, v, U, path. }
    split; [done|]. split; [done|]. split; [done|]. intros ts Hnd Hts. eapply (entries_count P FS lab s); [done|done|done|]. intros T. by rewrite HT.
  Qed.
  (** at every point of an execution, with calls and exceptions of other threads
      in between *)
  Theorem C81_stored s p M ls : trk cfg = true → reachable s → stack s t = [] → agrees s M → safe p M → Forall (foreign own t) ls → Forall (on_time cfg t0) ls →
    ∃ s' w p', prun (s, false, p) ls = Some (s', w, p') ∧ reachable s' ∧
      (w = false → quiescent s' → alone s' → ∃ M', rtc (plain true) (p, M) (p', M') ∧ stores s' M').
  Proof using Heq HP HF Hkey Hmakes Ht.
    intros Htr Hre Hst Hag Hsafe Hf Hon.
    destruct (C64_transparent P FS cfg eqv good Heq HP HF t0 lab Hkey own makes Hmakes t Ht s p M ls) as (s'&w&p'&M'&E&Hre'&Hr&Hw); [done..|].
    exists s', w, p'. split; [done|]. split; [done|]. intros -> Hq Hal. destruct Hw as [_ Hag']. exists M'. split; [done|]. by apply agrees_stores.
  Qed.
  (** even while other threads have flyweights and are in the middle of calls, and
      without tracking, each value and each part is in the factory, once *)
  Theorem C81_once s p M ls : reachable s → stack s t = [] → agrees s M → safe p M → Forall (foreign own t) ls → Forall (on_time cfg t0) ls →
    ∃ s' w p', prun (s, false, p) ls = Some (s', w, p') ∧ reachable s' ∧
      (w = false → ∃ M', rtc (plain true) (p, M) (p', M') ∧ agrees s' M' ∧
        ∀ T, part M' T → ∃ a n, entry s' a = Some n ∧ shows s' a T ∧ ∀ b m, entry s' b = Some m → shows s' b T → b = a).
  Proof using Heq HP HF Hkey Hmakes Ht.
    intros Hre Hst Hag Hsafe Hf Hon.
    destruct (C64_transparent P FS cfg eqv good Heq HP HF t0 lab Hkey own makes Hmakes t Ht s p M ls) as (s'&w&p'&M'&E&Hre'&Hr&Hw); [done..|].
    exists s', w, p'. split; [done|]. split; [done|]. intros ->. destruct Hw as [_ Hag']. exists M'. split; [done|]. split; [done|].
    pose proof (reach_inv P FS cfg eqv good Heq HP HF t0 s' Hre') as HI.
    intros T (x&U&path&Hx&Hsub). destruct Hag' as [Ha Hown]. pose proof (Ha x (Hown x (ex_intro _ _ Hx))) as Hd. rewrite Hx in Hd. destruct Hd as ([h r]&Hv&Hs).
    apply (value_of_var P FS cfg eqv good HF t0) in Hv as (_&n&Hn&_); [|done].
    destruct (shows_part P FS cfg eqv good HF t0 lab s' path HI h n U T Hn Hs Hsub) as (h'&n'&_&Hn'&HT).
    exists h', n'. split; [done|]. split; [done|]. intros b m Hm Hb. by eapply (shows_same P FS cfg eqv good Heq HF t0 lab Hkey s' b h' m n' T T).
  Qed.
  (** so there are at least as many entries as different values *)
  Theorem C81_at_least s M ts : reachable s → agrees s M → NoDup ts → (∀ T, T ∈ ts → part M T) → length ts ≤ size (heap s).
  Proof using Heq HP HF Hkey.
    intros Hre [Ha Hown] Hnd Hts. pose proof (reach_inv P FS cfg eqv good Heq HP HF t0 s Hre) as HI.
    assert (∃ bs, Forall2 (λ T a, (∃ n, entry s a = Some n) ∧ shows s a T) ts bs) as [bs Hbs].
    { assert (Hall : Forall (λ T, ∃ a, (∃ n, entry s a = Some n) ∧ shows s a T) ts).
      { apply Forall_forall. intros T (x&U&path&Hx&Hsub)%Hts. pose proof (Ha x (Hown x (ex_intro _ _ Hx))) as Hd. rewrite Hx in Hd. destruct Hd as ([h r]&Hv&Hs).
        apply (value_of_var P FS cfg eqv good HF t0) in Hv as (_&n&Hn&_); [|done].
        destruct (shows_part P FS cfg eqv good HF t0 lab s path HI h n U T Hn Hs Hsub) as (h'&n'&_&Hn'&HT). eauto. }
      clear -Hall. induction Hall as [|T ts [a Ha] _ [bs IH]]; [by exists []|]. exists (a :: bs). by constructor. }
    assert (Hd : NoDup bs).
    { apply NoDup_alt. intros i j a Hi Hj. destruct (Forall2_lookup_r _ _ _ _ _ Hbs Hi) as (T&HTi&[n Hn]&HTa). destruct (Forall2_lookup_r _ _ _ _ _ Hbs Hj) as (U&HUj&[m Hm]&HUa).
      assert (T = U) as -> by (by apply (shows_same P FS cfg eqv good Heq HF t0 lab Hkey s a a n m T U HI)). by eapply NoDup_lookup. }
    rewrite (Forall2_length _ _ _ Hbs), <- (size_list_to_set (C:=gset addr) bs Hd), <- size_dom. apply subseteq_size. intros a Hin%elem_of_list_to_set.
    apply elem_of_list_lookup in Hin as [i Hi]. destruct (Forall2_lookup_r _ _ _ _ _ Hbs Hi) as (T&_&[n Hn]&_). apply elem_of_dom. apply entry_heap in Hn as [Hn _]. eauto.
  Qed.
  (** when the program has destroyed what it made, nothing is stored *)
  Theorem C81_nothing s p ls s' w o : trk cfg = true → reachable s → stack s t = [] → agrees s ∅ → safe p ∅ → Forall (foreign own t) ls → Forall (on_time cfg t0) ls →
    (∀ o M, rtc (plain true) (p, ∅) (Ret o, M) → M = ∅) → prun (s, false, p) ls = Some (s', w, Ret o) → quiescent s' → alone s' → heap s' = ∅ ∧ w = false.
  Proof using Heq HP HF Hkey Hmakes Ht.
    intros Htr Hre Hst Hag Hsafe Hf Hon Hend E Hq Hal.
    destruct (C64_transparent P FS cfg eqv good Heq HP HF t0 lab Hkey own makes Hmakes t Ht s p ∅ ls) as (s2&w2&p2&M'&E2&Hre'&Hr&Hw); [done..|].
    rewrite E in E2. injection E2 as <- <- <-. destruct w; [by destruct Hw as (?&?&?)|]. split; [|done]. destruct Hw as [_ Hag']. rewrite (Hend o M' Hr) in Hag'.
    destruct (agrees_stores s' ∅ Htr Hre' Hq Hal Hag') as (_&_&_&Hsz). apply map_size_empty_inv. apply (Hsz []); [constructor|].
    intros T. split; [intros (x&U&path&Hx&_); by rewrite lookup_empty in Hx|by intros ?%elem_of_nil].
  Qed.
End Stored.

(** ** With teams of threads, one after another, as in C68 *)
Section Team.
  Context {K A R V L O : Type}.
  Context (P : policy K A R V) (FS : factory K) (cfg : config).
  Context (eqv : K → K → bool) (good : R → Prop).
  Context (Heq : equivalence eqv) (HP : policy_ok eqv good P) (HF : factory_spec eqv FS).
  Context (t0 : tid).
  Context `{EqDecision L} (lab : R → L).
  Context (Hkey : ∀ r r', eqv (p_key P r) (p_key P r') = bool_decide (lab r = lab r') && bool_decide (p_kids P r = p_kids P r')).
  Context (makes : A → nat → L → Prop).
  Context (Hmakes : ∀ a ks l, makes a (length ks) l → ∃ r, p_make P a ks = Some r ∧ p_kids P r = ks ∧ lab r = l).
  Context (fine : O → bool) (Own : var → Prop) (sure : Prop).
  Theorem C81_team (s : state FS) M ps rest Q ls : trk cfg = true → reachable P FS cfg t0 s → (∀ u, is_Some (ps !! u) → stack s u = []) →
    agrees P FS lab Own s M → stages_safe cfg t0 makes fine Own sure M ps rest Q → Forall (outsider Own) ls → Forall (timely cfg t0) ls →
    ∃ s' ps' rest', frun P FS cfg lab fine (s, ps, rest) ls = Some (s', ps', rest') ∧
      (rest' = [] → all_fine fine ps' = true → quiescent s' → alone FS Own s' → ∃ M', Q M' ∧ stores P FS lab s' M').
  Proof using Heq HP HF Hkey Hmakes.
    intros Htr Hre Hst Hag Hsafe Ho Htm.
    destruct (C68_stages P FS cfg eqv good Heq HP HF t0 lab Hkey makes Hmakes fine Own sure s M ps rest Q ls) as (s'&ps'&rest'&E&Hre'&_&_&Hend); [done..|].
    exists s', ps', rest'. split; [done|]. intros Hr Hfine Hq Hal. destruct (Hend Hr Hfine) as (_&M'&Hag'&HQ). exists M'. split; [done|].
    by apply (agrees_stores P FS cfg eqv good Heq HP HF t0 lab Hkey Own).
  Qed.
End Team.

(** ** Example: the program of C64 alone.  It ends with (1 (2 1)), twice, (2 1), 1 and
    ((2 1) (1 (2 1)) 1), which with 2 are five different values *)
Definition quiet_turns : list (clab (A:=option nat)) := turns 200 0.
Example C81_at_work :
  Forall (foreign small 1) quiet_turns ∧
  match prun cP cFS rc fst 1 (init cFS, false, counts) quiet_turns with
  | Some (s, w, Ret _) => w = false ∧ stack s 1 = [] ∧ stack s 2 = [] ∧ size (heap s) = 5 ∧ (map_to_list (vars s)).*1 ≡ₚ [1; 2; 4; 5; 6]
  | _ => False
  end.
Proof.
  split.
  { apply Forall_concat, Forall_fmap, Forall_forall. intros j _. repeat constructor; simpl; done. }
  vm_compute. split_and!; try reflexivity. apply NoDup_Permutation; [repeat (constructor; [set_solver|]); constructor..|]. set_solver.
Qed.

(** two threads, with a third that makes and destroys an object of its own: what is
    stored in the end is 1, 2 and the pairs of these that the two have *)
Example C81_team_at_work :
  match frun cP cFS rc fst (λ _, true) (init cFS, pteam, []) (FTeam <$> crowd) with
  | Some (s, ps, rest) => rest = [] ∧ all_fine (λ _, true) ps = true ∧ stack s 1 = [] ∧ stack s 2 = [] ∧ stack s 3 = [] ∧
      (map_to_list (vars s)).*1 ≡ₚ [11; 12; 13; 21; 22; 23] ∧ size (heap s) = 4
  | _ => False
  end.
Proof.
  vm_compute. split_and!; try reflexivity. apply NoDup_Permutation; [repeat (constructor; [set_solver|]); constructor..|]. set_solver.
Qed.

Print Assumptions C81_stored.
Print Assumptions C81_nothing.
Print Assumptions C81_team.
Print Assumptions C81_once.
Print Assumptions C81_at_least.
