(** C73: concurrent_factory's garbage collector with flyweights around: what it
    leaves is exactly what objects hold. *)
From Verif Require Import PropConcurrent ConcurrentGc.

Section Spec.
  Context {K A R V : Type} (P : Core.policy K A R V).
  Notation state := (state (K:=K) (A:=A) (R:=R)).
  (** an object stands for the entry, or for a value it is a part of *)
  Inductive held (s : state) : addr → Prop :=
  | held_var x h : vars s !! x = Some (Some h) → held s h
  | held_kid b n a : held s b → ents s !! b = Some n → a ∈ p_kids P (n_rep n) → held s a.
  (** [G]: the entries nothing holds *)
  Definition garbage (s : state) (G : gset addr) : Prop := ∀ a, a ∈ G ↔ is_Some (ents s !! a) ∧ ¬ held s a.
End Spec.

Section Held.
  Context {K A R V : Type}.
  Context (P : Core.policy K A R V) (eqv : K → K → bool) (good : R → Prop).
  Context (Heq : equivalence eqv) (HP : policy_ok eqv good P).
  Notation state := (state (K:=K) (A:=A) (R:=R)).
  Notation label := (label (A:=A)).
  Notation node := (node (R:=R)).
  Notation Inv := (Inv P eqv good).
  Notation cnt := (cnt P).
  Notation step := (step P eqv).
  Notation run := (run P eqv).
  Notation reachable := (reachable P eqv).
  Notation passes := (passes P eqv).
  Notation held := (held P).
  Notation garbage := (garbage P).
  Implicit Types (s : state) (n m : node) (a b h : addr) (l : label) (G : gset addr).

  Lemma held_cnt s a : held s a → 0 < cnt s a.
  Proof. intros Hh. destruct Hh as [x h Hx|b n a Hb Hn Ha]; [by eapply cnt_var|by eapply cnt_kid]. Qed.
  Lemma held_dec s : Inv s → ∀ (c : nat) a, clock s ≤ a + c → held s a ∨ ¬ held s a.
  Proof.
    intros HI. induction c as [|c IH]; intros a Hc.
    - right. intros Hh. destruct (present P eqv good s a HI (held_cnt s a Hh)) as (n&Hn&_). pose proof (i_low _ _ _ _ HI a n Hn). lia.
    - destruct (decide (map_Forall (λ _ o, o ≠ Some a) (vars s))) as [Hno|Hyes].
      2: { apply map_not_Forall in Hyes as (x&o&Hx&Ho); [|intros; apply _]. left. apply dec_stable in Ho as ->. by eapply held_var. }
      assert (Hlist : ∀ L : list (addr * node), (∀ p, p ∈ L → ents s !! p.1 = Some p.2) →
        (∃ b n, (b, n) ∈ L ∧ a ∈ p_kids P (n_rep n) ∧ held s b) ∨ ∀ b n, (b, n) ∈ L → a ∈ p_kids P (n_rep n) → ¬ held s b).
      { induction L as [|[b n] L IHL]; intros HL; [right; by intros b n ?%elem_of_nil|].
        destruct (IHL (λ p Hp, HL p (elem_of_list_further _ _ _ Hp))) as [(b'&n'&?&?&?)|Hrest]; [left; exists b', n'; split; [by right|done]|].
        destruct (decide (a ∈ p_kids P (n_rep n))) as [Hin|Hin]; [|right; intros b' n' [[= -> ->]|?]%elem_of_cons; [done|by eapply Hrest]].
        pose proof (HL (b, n) (elem_of_list_here _ _)) as Hn. simpl in Hn. pose proof (i_kids _ _ _ _ HI b n a Hn Hin) as Hlt.
        destruct (IH b) as [Hh|Hh]; [lia| |].
        - left. exists b, n. split; [by left|done].
        - right. intros b' n' [[= -> ->]|?]%elem_of_cons; [done|by eapply Hrest]. }
      destruct (Hlist (map_to_list (ents s))) as [(b&n&Hb&Ha&Hh)|Hno2].
      + intros [b n] Hp. by apply elem_of_map_to_list in Hp.
      + left. apply elem_of_map_to_list in Hb. by eapply held_kid.
      + right. intros Hh. inversion Hh as [x h Hx|b n a' Hb Hn Ha]; subst; [by eapply Hno|].
        eapply (Hno2 b n); [by apply elem_of_map_to_list|done|done].
  Qed.
  Lemma garbage_some s : Inv s → ∃ G, garbage s G ∧ size G ≤ size (ents s).
  Proof.
    intros HI. assert (∀ D : gset addr, D ⊆ dom (ents s) → ∃ G, ∀ a, a ∈ G ↔ a ∈ D ∧ ¬ held s a) as H.
    { induction D as [|a D Ha IH] using set_ind_L; intros HD; [exists ∅; set_solver|]. destruct IH as [G HG]; [set_solver|].
      destruct (held_dec s HI (clock s) a) as [Hh|Hh]; [lia| |]; [exists G; set_solver|exists ({[a]} ∪ G); set_solver]. }
    destruct (H (dom (ents s)) (reflexivity _)) as [G HG]. exists G. split.
    - intros a. by rewrite HG, elem_of_dom.
    - rewrite <- size_dom. apply subseteq_size. intros a [? _]%HG. done.
  Qed.

  (** the collector alone does not change what is held *)
  Lemma gc_held s l s' a : Inv s → gc_label l → step s l = Next s' → (held s' a ↔ held s a).
  Proof.
    intros HI Hl Hs. destruct (gc_step P eqv good s l s' HI Hl Hs) as (Ev&_&Ee&_). split; intros Hh.
    - induction Hh as [x h Hx|b n a _ IH Hn Ha]; [apply (held_var _ _ x); by rewrite <- Ev|]. destruct (Ee b n Hn) as (m&Hm&Er).
      eapply held_kid; [exact IH|done|]. by rewrite <- Er.
    - induction Hh as [x h Hx|b n a Hb IH Hn Ha]; [apply (held_var _ _ x); by rewrite Ev|].
      destruct (rep_keep P eqv good HP s l s' b n HI Hs Hn (held_cnt s b Hb)) as (n'&Hn'&Er). eapply held_kid; [exact IH|done|]. by rewrite Er.
  Qed.
  Lemma gc_garbage s l s' G : Inv s → gc_label l → step s l = Next s' → garbage s G → garbage s' (G ∩ dom (ents s')).
  Proof.
    intros HI Hl Hs HG a. rewrite elem_of_intersection, (HG a : a ∈ G ↔ _), elem_of_dom, (gc_held s l s' a HI Hl Hs). split; [naive_solver|]. intros [Ha Hh].
    split; [|done]. split; [|done]. destruct Ha as [n' Hn']. destruct (gc_step P eqv good s l s' HI Hl Hs) as (_&_&Ee&_). destruct (Ee a n' Hn') as (n&Hn&_). eauto.
  Qed.
  Lemma max_elem G : G ≠ ∅ → ∃ a, a ∈ G ∧ ∀ b, b ∈ G → b ≤ a.
  Proof.
    induction G as [|k G Hk IH] using set_ind_L; [done|]. intros _. destruct (decide (G = ∅)) as [->|Hne]; [exists k; set_solver|].
    destruct (IH Hne) as (a&Ha&Hmax). destruct (decide (k ≤ a)).
    - exists a. split; [set_solver|]. intros b [->%elem_of_singleton|Hb]%elem_of_union; [done|by apply Hmax].
    - exists k. split; [set_solver|]. intros b [->%elem_of_singleton|Hb]%elem_of_union; [done|]. specialize (Hmax b Hb). lia.
  Qed.

  (** at the end of the current pass there are fewer than [c] *)
  Definition few s (c : nat) : Prop :=
    ∃ G, garbage s G ∧ size G ≤ c ∧ (todo s = None ∨ size G ≤ pred c ∨ ∃ a, a ∈ G ∧ doomed s a ∧ ¬ referenced P s a).
  Lemma few_step s l s' (c : nat) : Inv s → idle s → gc_label l → step s l = Next s' → few s c → few s' (match l with LEnd => pred c | _ => c end).
  Proof.
    intros HI Hid Hl Hs (G&HG&Hc&Hb). pose proof (gc_garbage s l s' G HI Hl Hs HG) as HG'.
    assert (Hsz : size (G ∩ dom (ents s')) ≤ size G) by (apply subseteq_size; set_solver).
    assert (Hlt : ∀ a, a ∈ G → ents s' !! a = None → size (G ∩ dom (ents s')) < size G).
    { intros a Ha Hn. apply subset_size. split; [set_solver|]. intros H. apply H in Ha. apply elem_of_intersection in Ha as [_ Ha]. apply elem_of_dom in Ha as [? ?]. congruence. }
    exists (G ∩ dom (ents s')). split; [done|].
    assert (l = LEnd ∨ l ≠ LEnd) as [->|Hne] by (destruct l; (by left) || by right).
    - assert (size (G ∩ dom (ents s')) ≤ pred c) as Hn'.
      { destruct Hb as [Hb|[Hb|(a&Ha&Hd&_)]]; [simpl in Hs; by rewrite Hb in Hs|lia|]. specialize (Hlt a Ha (doomed_end P eqv s s' a Hd Hs)). lia. }
      split; [lia|]. left. simpl in Hs. repeat case_match; simplify_eq. done.
    - assert (size (G ∩ dom (ents s')) ≤ c ∧ (todo s' = None ∨ size (G ∩ dom (ents s')) ≤ pred c ∨ ∃ a, a ∈ G ∩ dom (ents s') ∧ doomed s' a ∧ ¬ referenced P s' a)); [|by destruct l].
      split; [lia|]. destruct (todo s') eqn:Et'; [right|by left].
      destruct Hb as [Hb|[Hb|(a&Ha&Hd&Href)]].
      + (* the pass begins *)
        assert (l = LBegin) as ->.
        { destruct l as [t op|t thr| |h|]; simpl in Hl, Hs; [done| |done|by rewrite Hb in Hs|done].
          destruct (stack s t) eqn:E; [done|]. apply (exec_todo P eqv) in Hs. congruence. }
        simpl in Hs. rewrite Hb in Hs. simplify_eq. simpl in *. pose proof (i_todo _ _ _ _ HI) as Htd. rewrite Hb in Htd.
        destruct (decide (G = ∅)) as [->|E]; [left; rewrite intersection_empty_l_L, size_empty; lia|right].
        destruct (max_elem _ E) as (a&Ha&Hmax). pose proof (proj1 (HG a) Ha) as [Hin Hnh]. exists a. split_and!.
        * apply elem_of_intersection. split; [done|]. by apply elem_of_dom.
        * right; left. exists (dom (ents s)). split; [done|]. by apply elem_of_dom.
        * intros [[x Hx]|[(b&m&Hm&Hk)|(t&i&Hi&_)]].
          -- simpl in Hx. apply Hnh. by eapply held_var.
          -- simpl in Hm. pose proof (i_kids _ _ _ _ HI b m a Hm Hk). assert (b ≤ a); [|lia]. apply Hmax, HG. split; [eauto|].
             intros Hh. apply Hnh. by eapply held_kid.
          -- change (stack _ t) with (stack s t) in Hi. destruct (decide (t = gc_tid)) as [->|Ht]; [rewrite Htd in Hi|rewrite (Hid t Ht) in Hi];
               by apply elem_of_nil in Hi.
      + left. lia.
      + destruct (ents s' !! a) as [m|] eqn:Em.
        * right. exists a. split_and!; [apply elem_of_intersection; split; [done|apply elem_of_dom; eauto]| |].
          -- eapply (doomed_step P eqv good HP); [done|exact Hs|done|by apply unreferenced_cnt|done].
          -- intros H. apply Href. by eapply (gc_step_referenced P eqv good).
        * left. specialize (Hlt a Ha Em). lia.
  Qed.
  Lemma gc_run ls : ∀ s s', Inv s → idle s → Forall gc_label ls → run s ls = Next s' →
    Inv s' ∧ (∀ a, held s' a ↔ held s a) ∧ (∀ a n, held s a → ents s !! a = Some n → ∃ n', ents s' !! a = Some n' ∧ n_rep n' = n_rep n) ∧
    ∀ c, few s c → few s' (c - passes s ls).
  Proof.
    induction ls as [|l ls IH]; intros s s' HI Hid Hl Hr; simpl in *.
    { simplify_eq. split_and!; [done|done|eauto|]. intros c. by rewrite Nat.sub_0_r. }
    apply Forall_cons in Hl as [Hl1 Hl]. destruct (step s l) as [s1| |] eqn:E; [|by apply IH|done].
    destruct (IH s1 s') as (I1&I2&I3&I4); [by eapply (step_next P eqv good Heq HP)|by eapply (gc_idle P eqv good)|done|done|].
    split_and!; [done| | |].
    - intros a. rewrite I2. by apply (gc_held s l s1).
    - intros a n Hh Hn. destruct (rep_keep P eqv good HP s l s1 a n HI E Hn (held_cnt s a Hh)) as (n1&Hn1&<-). apply I3; [|done]. by apply (gc_held s l s1).
    - intros c Hc. pose proof (I4 _ (few_step s l s1 c HI Hid Hl1 E Hc)) as Hf.
      replace (c - ((match l with LEnd => 1 | _ => 0 end) + passes s1 ls)) with ((match l with LEnd => pred c | _ => c end) - passes s1 ls); [done|]. destruct l; lia.
  Qed.

  (** ** C73 *)

  (** The collector leaves what is held alone, *)
  Theorem C73_keeps s ls s' : reachable s → idle s → Forall gc_label ls → run s ls = Next s' →
    (∀ a, held s' a ↔ held s a) ∧ ∀ a n, held s a → ents s !! a = Some n → ∃ n', ents s' !! a = Some n' ∧ n_rep n' = n_rep n.
  Proof. intros Hr Hid Hl Hs. by destruct (gc_run ls s s' (reach_inv P eqv good Heq HP s Hr) Hid Hl Hs) as (_&?&?&_). Qed.
  (** what is held is there, and the rest is a finite set; *)
  Theorem C73_there s a : reachable s → held s a → ∃ n, ents s !! a = Some n ∧ is_Some (p_val P (n_rep n)) ∧ (0 < n_cnt n)%Z.
  Proof.
    intros Hr Hh. pose proof (reach_inv P eqv good Heq HP s Hr) as HI. pose proof (held_cnt s a Hh) as Hc.
    destruct (present P eqv good s a HI Hc) as (n&Hn&Hv). exists n. split_and!; [done|done|]. destruct (i_cnt _ _ _ _ HI a n Hn) as [-> _]. lia.
  Qed.
  Theorem C73_garbage s : reachable s → ∃ G, garbage s G ∧ size G ≤ size (ents s).
  Proof. intros Hr. by apply garbage_some, (reach_inv P eqv good Heq HP). Qed.
  (** with no call in progress, as many passes as it has elements leave
      nothing of that, however entries are nested: *)
  Theorem C73_exact s ls s' G : reachable s → idle s → garbage s G → Forall gc_label ls → run s ls = Next s' →
    size G < passes s ls ∨ (todo s = None ∧ size G ≤ passes s ls) → ∀ a, is_Some (ents s' !! a) ↔ held s' a.
  Proof.
    intros Hr Hid HG Hl Hs Hp a. destruct (gc_run ls s s' (reach_inv P eqv good Heq HP s Hr) Hid Hl Hs) as (I1&_&_&I4).
    split; [|intros Hh; destruct (present P eqv good s' a I1 (held_cnt s' a Hh)) as (n&Hn&_); eauto].
    intros Ha. destruct (held_dec s' I1 (clock s') a) as [|Hh]; [lia|done|exfalso].
    assert (∃ c, few s c ∧ c - passes s ls = 0) as (c&Hc&Hz).
    { destruct Hp as [Hp|[Ht Hp]]; [exists (S (size G))|exists (size G)]; (split; [|lia]); exists G; (split; [done|split; [lia|]]); [right; left; simpl; lia|by left]. }
    destruct (I4 c Hc) as (G'&HG'&Hsz&_). assert (a ∈ G') as Hin by (by apply HG'). assert (size G' = 0) as Hz' by lia. apply size_empty_iff in Hz'. set_solver.
  Qed.
End Held.

From Verif Require Import ConcurrentPolicies.
(** ** Example: objects 1 and 4 hold 17 and 5 made of 7 and 3; nothing holds 9
    made of that, nor 8 made of 9. *)
Definition messy : list clabel := demo ++ call 1 (ONew 5 9 [4; 2]) ++ call 1 (ONew 6 8 [5]) ++ concat (map (λ x, call 1 (ODestroy x)) [0; 2; 3; 5; 6]).
Definition mess : cstate := crun init messy.
Lemma mess_held a : held iP mess a → a < 3.
Proof.
  induction 1 as [x h Hx|b n a _ IH Hn Ha].
  - assert (forallb (λ p : var * option addr, match p.2 with Some h => h <? 3 | None => true end) (map_to_list (vars mess)) = true) as Hb by (by vm_compute).
    rewrite forallb_forall in Hb. by apply elem_of_map_to_list, elem_of_list_In, Hb, Nat.ltb_lt in Hx.
  - pose proof (ents_by (λ p, (3 <=? p.1) || forallb (λ a, a <? 3) (p_kids iP (n_rep p.2))) (ents mess) ltac:(by vm_compute) b n Hn) as Hb. cbn [fst snd] in Hb.
    apply orb_true_iff in Hb as [?%Nat.leb_le|Hb]; [lia|]. rewrite forallb_forall in Hb. by apply elem_of_list_In, Hb, Nat.ltb_lt in Ha.
Qed.
Example C73_at_work : reachable iP ieq mess ∧ idle mess ∧ garbage iP mess {[3; 4]} ∧ todo mess = None ∧ Forall gc_label (pass 5 ++ pass 5) ∧
  cdoes mess (pass 5 ++ pass 5) = true ∧ passes iP ieq mess (pass 5 ++ pass 5) = 2 ∧
  size (ents mess) = 5 ∧ size (ents (crun mess (pass 5))) = 4 ∧ size (ents (crun mess (pass 5 ++ pass 5))) = 3 ∧
  value_of (crun mess (pass 5 ++ pass 5)) 4 = Some (2, Policies.Prep (5, [0; 1]) (Some 25)).
Proof.
  split; [reach|]. split; [intros t _; apply (stacks_by mess); by vm_compute|]. split.
  { assert (Hdom : ∀ a, is_Some (ents mess !! a) ↔ a < 5).
    { intros a. split.
      - intros [n Hn]. by apply (ents_by (λ p, p.1 <? 5) (ents mess) ltac:(by vm_compute)), Nat.ltb_lt in Hn.
      - intros Ha. do 5 (destruct a as [|a]; [vm_compute; eauto|]). lia. }
    assert (H0 : held iP mess 0) by (apply (held_var _ _ 1); by vm_compute).
    assert (H2 : held iP mess 2) by (apply (held_var _ _ 4); by vm_compute).
    assert (H1 : held iP mess 1).
    { assert (Hk : (λ n, p_kids iP (n_rep n)) <$> ents mess !! 2 = Some [0; 1]) by (by vm_compute). destruct (ents mess !! 2) as [n|] eqn:E; [|done].
      cbn [fmap option_fmap option_map] in Hk. apply (inj Some) in Hk. eapply (held_kid _ _ 2 n); [done|done|]. rewrite Hk. right. left. }
    intros a. rewrite Hdom, elem_of_union, !elem_of_singleton. split.
    - intros Ha. split; [lia|]. intros ?%mess_held. lia.
    - intros [Ha Hn]. do 3 (destruct a as [|a]; [done|]). lia. }
  split; [by vm_compute|]. split; [by vm_compute; repeat constructor|]. vm_compute. split_and!; reflexivity.
Qed.

Print Assumptions C73_keeps.
Print Assumptions C73_there.
Print Assumptions C73_garbage.
Print Assumptions C73_exact.
