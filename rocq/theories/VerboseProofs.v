(** Proofs about [Verbose.v]: the factory keeps the specification of factories,
    and its messages tell which entries there are. *)
From Verif Require Import SerializeProofs Policies Instances.
From Verif Require Import Factory Verbose.

(** What may be said of one key, last message first; [true]: there is an entry *)
Inductive story : list kind → bool → Prop :=
| St_nil : story [] false
| St_new l : story l false → story (New :: l) true
| St_hit l : story l true → story (Hit :: l) true
| St_del l : story l true → story (Del :: l) false.

Section Verbose.
  Context {K : Type} (eqv : K → K → bool).
  Notation msg := (kind * nat * option K)%type.
  (** what is said of a key *)
  Definition heard (k : K) (l : list (kind * K)) : list kind := (filter (λ x : kind * K, eqv x.2 k = true) l).*1.

  Lemma story_fun l b b' : story l b → story l b' → b = b'.
  Proof. intros H. revert b'. induction H; intros b' H'; by inversion H'. Qed.
  Lemma heard_cons_eq k d k' l : eqv k' k = true → heard k ((d, k') :: l) = d :: heard k l.
  Proof. intros E. unfold heard. rewrite filter_cons_True by done. done. Qed.
  Lemma heard_cons_ne k d k' l : eqv k' k ≠ true → heard k ((d, k') :: l) = heard k l.
  Proof. intros E. unfold heard. rewrite filter_cons_False by done. done. Qed.
  Lemma heard_app k l l' : heard k (l ++ l') = heard k l ++ heard k l'.
  Proof. unfold heard. by rewrite filter_app, fmap_app. Qed.

  Context (Heq : equivalence eqv) (FS : factory K) (HF : factory_spec eqv FS).
  Definition there (kv : nat → option K) (X : gset nat) (k : K) : Prop := ∃ a k', a ∈ X ∧ kv a = Some k' ∧ eqv k' k = true.
  Record vinv (c : f_cont FS * list msg) (kv : nat → option K) (X : gset nat) : Prop := Vinv {
    v_in : fi_inv HF c.1 kv X;
    v_key : ∀ a, a ∈ X → ∃ k k', key_at c.2 a = Some k ∧ kv a = Some k' ∧ eqv k' k = true;
    v_uniq : ∀ a b k k', a ∈ X → b ∈ X → kv a = Some k → kv b = Some k' → eqv k' k = true → a = b;
    v_story : ∀ k, ∃ b, story (heard k (said c.2)) b ∧ (b = true ↔ there kv X k);
  }.

  Lemma there_eqv kv X k k' : eqv k k' = true → there kv X k → there kv X k'.
  Proof. intros E (a&k1&H1&H2&H3). exists a, k1. split_and!; [done|done|]. by eapply (eqv_trans _ Heq). Qed.
  Lemma eqv_any k k' l : eqv k k' = true → eqv k l = true → eqv k' l = true.
  Proof. intros E1 E2. eapply (eqv_trans _ Heq); [by apply (eqv_sym _ Heq)|done]. Qed.

  Lemma vinv_hit c kv X a : vinv c kv X → a ∈ X → vinv (f_hit (verbose FS) c a) kv X.
  Proof.
    intros [H1 H2 H3 H4] Ha. split; simpl; [by apply (fi_hit _ _ HF)|exact H2|exact H3|]. intros k.
    destruct (H2 a Ha) as (ka&k'&Eka&Ek'&Ekk). unfold key_of_msg. simpl. rewrite Eka. destruct (H4 k) as (b&Hs&Hb).
    destruct (decide (eqv ka k = true)) as [E|E].
    - rewrite heard_cons_eq by done. assert (b = true) as -> by (apply Hb; exists a, k'; split_and!; [done|done|by eapply (eqv_trans _ Heq)]).
      exists true. split; [by constructor|done].
    - rewrite heard_cons_ne by done. by exists b.
  Qed.
  Lemma vinv_link c kv X a k : vinv c kv X → a ∉ X → kv a = Some k → (∀ b k', b ∈ X → kv b = Some k' → eqv k' k = false) →
    vinv (f_link (verbose FS) c kv a) kv ({[a]} ∪ X).
  Proof.
    intros [H1 H2 H3 H4] Ha Hk Hn. split; simpl.
    - by eapply (fi_link _ _ HF).
    - intros b Hb. case_decide as E; [subst b; exists k, k; split_and!; [done|done|by apply (eqv_refl _ Heq)]|]. apply H2. set_solver.
    - intros b b' k1 k2 Hb Hb' E1 E2 E.
      destruct (decide (b = a)) as [->|Hba], (decide (b' = a)) as [->|Hba']; [done| | |by eapply H3; [set_solver..|done|done|done]].
      + assert (k1 = k) as -> by congruence. rewrite (Hn b' k2) in E; [done|set_solver|done].
      + assert (k2 = k) as -> by congruence. apply (eqv_sym _ Heq) in E. rewrite (Hn b k1) in E; [done|set_solver|done].
    - intros k1. unfold key_of_msg. simpl. rewrite Hk. destruct (H4 k1) as (b&Hs&Hb). destruct (decide (eqv k k1 = true)) as [E|E].
      + rewrite heard_cons_eq by done. assert (b = false) as ->.
        { destruct b; [|done]. destruct (proj1 Hb eq_refl) as (a'&k'&Ha'&Ek'&E'). pose proof (Hn a' k' Ha' Ek') as Hf.
          rewrite (eqv_trans _ Heq k' k1 k) in Hf; [done|done|by apply (eqv_sym _ Heq)]. }
        exists true. split; [by constructor|]. split; [|done]. intros _. exists a, k. split_and!; [set_solver|done|done].
      + rewrite heard_cons_ne by done. exists b. split; [done|]. rewrite Hb. split; intros (a'&k'&Ha'&Ek'&E'); exists a', k'; (split_and!; [|done|done]); [set_solver|].
        apply elem_of_union in Ha' as [->%elem_of_singleton|?]; [|done]. destruct E. congruence.
  Qed.
  Lemma vinv_unlink c kv X a : vinv c kv X → a ∈ X → vinv (f_unlink (verbose FS) c kv a) kv (X ∖ {[a]}).
  Proof.
    intros [H1 H2 H3 H4] Ha. split; simpl.
    - by apply (fi_unlink _ _ HF).
    - intros b Hb. apply H2. set_solver.
    - intros b b' k1 k2 Hb Hb'. apply H3; set_solver.
    - intros k1. destruct (fi_keys _ _ HF _ _ _ a H1 Ha) as [k Hk]. unfold key_of_msg. simpl. rewrite Hk. destruct (H4 k1) as (b&Hs&Hb).
      destruct (decide (eqv k k1 = true)) as [E|E].
      + rewrite heard_cons_eq by done. assert (b = true) as -> by (apply Hb; by exists a, k). exists false. split; [by constructor|].
        split; [done|]. intros (a'&k'&[Ha' Hne]%elem_of_difference&Ek'&E'). destruct Hne. apply elem_of_singleton.
        eapply (H3 a' a k' k); [done..|]. eapply (eqv_trans _ Heq); [done|]. by apply (eqv_sym _ Heq).
      + rewrite heard_cons_ne by done. exists b. split; [done|]. rewrite Hb. split; intros (a'&k'&Ha'&Ek'&E'); exists a', k'; (split_and!; [|done|done]); [|set_solver].
        apply elem_of_difference. split; [done|]. intros ->%elem_of_singleton. destruct E. congruence.
  Qed.
  Lemma vinv_view c kv kv' X : vinv c kv X → (∀ a k, a ∈ X → kv a = Some k → ∃ k', kv' a = Some k' ∧ eqv k' k = true) → vinv c kv' X.
  Proof.
    intros [H1 H2 H3 H4] Hv.
    assert (Hb : ∀ a k', a ∈ X → kv' a = Some k' → ∃ k, kv a = Some k ∧ eqv k' k = true).
    { intros a k' Ha Hk'. destruct (fi_keys _ _ HF _ _ _ a H1 Ha) as [k Hk]. destruct (Hv a k Ha Hk) as (k1&E1&E2). exists k. split; [done|congruence]. }
    split.
    - by eapply (fi_view _ _ HF).
    - intros a Ha. destruct (H2 a Ha) as (k&k'&E1&E2&E3). destruct (Hv a k' Ha E2) as (k1&E4&E5). exists k, k1. split_and!; [done|done|by eapply (eqv_trans _ Heq)].
    - intros a b k k' Ha Hb' Ek Ek' E. destruct (Hb a k Ha Ek) as (k1&Hk1&E1), (Hb b k' Hb' Ek') as (k2&Hk2&E2).
      eapply (H3 a b k1 k2); [done..|]. apply (eqv_trans _ Heq _ k'); [by apply (eqv_sym _ Heq)|]. by apply (eqv_trans _ Heq _ k).
    - intros k. destruct (H4 k) as (b&Hs&Hbb). exists b. split; [done|]. rewrite Hbb. split; intros (a&k'&Ha&Ek'&E).
      + destruct (Hv a k' Ha Ek') as (k1&E1&E2). exists a, k1. split_and!; [done|done|by eapply (eqv_trans _ Heq)].
      + destruct (Hb a k' Ha Ek') as (k1&E1&E2). exists a, k1. split_and!; [done|done|]. eapply eqv_any; done.
  Qed.
  Definition verbose_spec : factory_spec eqv (verbose FS).
  Proof.
    refine (FactorySpec _ eqv (verbose FS) vinv _ _ _ _ _ _ _ _ _).
    - intros kv. split; simpl; [apply (fi_empty _ _ HF)|set_solver|set_solver|]. intros k. exists false. split; [constructor|]. split; [done|]. intros (?&?&?&_). set_solver.
    - intros c kv X a [H _ _ _]. exact (fi_keys _ _ HF _ _ _ a H).
    - intros c kv X k a [H _ _ _]. exact (fi_found _ _ HF _ _ _ k a H).
    - intros c kv X k a k' [H _ _ _]. exact (fi_notfound _ _ HF _ _ _ k a k' H).
    - intros c kv X k [H _ _ _]. exact (fi_goodread _ _ HF _ _ _ k H).
    - apply vinv_hit.
    - apply vinv_link.
    - apply vinv_unlink.
    - apply vinv_view.
  Defined.
End Verbose.

(** ** The messages of the machine *)
Section Machine.
  Context {K A R V : Type} (P : policy K A R V) (FS : factory K) (cfg : config).
  Context (eqv : K → K → bool) (good : R → Prop).
  Context (Heq : equivalence eqv) (HP : policy_ok eqv good P) (HF : factory_spec eqv FS) (t0 : tid).
  Notation VF := (verbose FS).
  Notation HV := (verbose_spec eqv Heq FS HF).
  Notation state := (state (R:=R) (K:=K) (A:=A) VF).
  Notation instr := (instr (K:=K) (A:=A) (R:=R)).
  Notation Inv := (Inv P VF cfg eqv good HV t0).
  Notation reachable := (reachable P VF cfg t0).
  (** what has been written, last first *)
  Definition written (s : state) : list (kind * K) := said (snd (cont s : f_cont FS * list (kind * nat * option K))).
  Definition present (s : state) (k : K) : Prop := ∃ a n, entry s a = Some n ∧ eqv (p_key P (n_rep n)) k = true.
  Lemma story_of s k : reachable s → ∃ b, story (heard eqv k (written s)) b ∧ (b = true ↔ present s k).
  Proof using Heq HP HF.
    intros Hr. pose proof (reach_inv P VF cfg eqv good Heq HP HV t0 s Hr) as HI. pose proof (i_fac _ _ _ _ _ _ (i_H _ _ _ _ _ _ _ _ HI)) as Hf.
    destruct (v_story _ _ _ _ _ _ Hf k) as (b&Hs&Hb). exists b. split; [done|]. rewrite Hb. unfold there, present. split.
    - intros (a&k'&Ha&Ek&E). apply elem_of_linked in Ha as [n Hn]. exists a, n. split; [done|]. unfold kview in Ek. rewrite Hn in Ek. congruence.
    - intros (a&n&Hn&E). exists a, (p_key P (n_rep n)). split_and!; [apply elem_of_linked; eauto|unfold kview; by rewrite Hn|done].
  Qed.

  (** the searches that a thread is to make *)
  Definition fnd (i : instr) : list K := match i with ILockFind _ _ r | IFind _ _ r => [p_key P r] | _ => [] end.
  Definition fnds (l : list instr) : list K := mjoin (fnd <$> l).
  Definition asked (l : list (kind * K)) : list K := (filter (λ x : kind * K, x.1 ≠ Del) l).*2.
  Lemma fnds_app l l' : fnds (l ++ l') = fnds l ++ fnds l'.
  Proof. unfold fnds. induction l as [|i l IH]; [done|]. simpl. rewrite <- app_assoc. by f_equal. Qed.
  Lemma fnds_release ks : fnds (map IRelease ks) = [].
  Proof. unfold fnds. induction ks as [|k ks IH]; [done|]. simpl. exact IH. Qed.
  Lemma fnds_cons i l : fnds (i :: l) = fnd i ++ fnds l.
  Proof. done. Qed.
  Lemma asked_app l l' : asked (l ++ l') = asked l ++ asked l'.
  Proof. unfold asked. by rewrite filter_app, fmap_app. Qed.
  Lemma stack_log (s : state) e t : stack (add_log e s) t = stack s t.
  Proof. done. Qed.
  Ltac fn := unfold finish, unwind; rewrite ?stack_log; rewrite ?stack_set, ?decide_True by done; repeat (rewrite ?fnds_app, ?fnds_cons, ?fnds_release; cbn [fnd app]); try done.

  Definition adds (s s' : state) (t : tid) : Prop := ∃ D, written s' = D ++ written s ∧ length D ≤ 1 ∧
    ((asked D = [] ∧ fnds (stack s' t) = fnds (stack s t)) ∨ ∃ k k', asked D = [k'] ∧ fnds (stack s t) = k :: fnds (stack s' t) ∧ eqv k' k = true).
  Lemma adds_none s s' t : cont s' = cont s → fnds (stack s' t) = fnds (stack s t) → adds s s' t.
  Proof. intros E1 E2. exists []. unfold written. rewrite E1. split_and!; [done|simpl; lia|]. by left. Qed.
  Lemma adds_del s s' t a n : cont s' = f_unlink VF (cont s) (kview P s) a → entry s a = Some n → fnds (stack s' t) = fnds (stack s t) → adds s s' t.
  Proof.
    intros E1 Hn E2. exists [(Del, p_key P (n_rep n))]. unfold written. rewrite E1. simpl. unfold key_of_msg. simpl. unfold kview. rewrite Hn.
    split_and!; [done|lia|]. by left.
  Qed.
  Lemma exec_adds s t i rest c s' : Inv s → stack s t = i :: rest → exec P VF cfg s t i rest c = Next s' → c_throw c = false → adds s s' t.
  Proof using Heq HP.
    intros HI Est Hex Hc. pose proof (i_fac _ _ _ _ _ _ (i_H _ _ _ _ _ _ _ _ HI)) as Hf.
    assert (Hacq : ∀ s1, acquire VF cfg s t = Some s1 → cont s1 = cont s) by (unfold acquire; intros s1 E; repeat case_match; by simplify_eq).
    assert (Hunl : ∀ s1, unlock VF cfg s t = Some s1 → cont s1 = cont s) by (unfold unlock; intros s1 E; repeat case_match; by simplify_eq).
    destruct i; cbn [exec] in Hex; rewrite ?Hc in Hex.
    - destruct (acquire _ _ s t) as [s1|] eqn:E; simplify_eq. apply adds_none; [exact (Hacq _ eq_refl)|]. rewrite Est. fn.
    - destruct (f_find VF (cont s) (kview P s) (p_key P r)) as [h| |] eqn:Ef; [| |done].
      + simplify_eq. destruct (fi_found _ _ HV _ _ _ _ _ Hf Ef) as (Hin&k'&Hk'&Ek'). destruct (v_key _ _ _ _ _ _ Hf h Hin) as (k&k1&E1&E2&E3).
        exists [(Hit, k)]. split_and!; [|simpl; lia|].
        * unfold written. simpl. unfold key_of_msg. simpl. unfold Core.cont in *. by rewrite E1.
        * right. exists (p_key P r), k. rewrite Est. split_and!; [done|fn|]. apply (eqv_trans _ Heq _ k1); [by apply (eqv_sym _ Heq)|]. congruence.
      + destruct (heap s !! c_addr c) eqn:Ea; [done|]. simplify_eq. exists [(New, p_key P r)]. split_and!; [|simpl; lia|].
        * unfold written. simpl. unfold key_of_msg, kview. simpl.
          assert (entry (put (c_addr c) (Node r 0 0 true (clock s)) s) (c_addr c) = Some (Node r 0 0 true (clock s))) as -> by (apply entry_heap; simpl; by rewrite lookup_insert).
          done.
        * right. exists (p_key P r), (p_key P r). rewrite Est. split_and!; [done|fn|by apply (eqv_refl _ Heq)].
    - destruct (entry s h) as [n|] eqn:En; [|done]. destruct (p_val P (n_rep n)); simplify_eq; (apply adds_none; [done|]; rewrite Est; fn).
    - repeat case_match; simplify_eq; (apply adds_none; [done|]; rewrite Est; fn).
    - repeat case_match; simplify_eq; (apply adds_none; [done|]; rewrite Est; fn).
    - destruct (unlock _ _ s t) as [s1|] eqn:E; simplify_eq. apply adds_none; [exact (Hunl _ eq_refl)|]. rewrite Est. fn.
    - repeat case_match; simplify_eq; (apply adds_none; [done|]; rewrite Est; fn).
    - destruct (acquire _ _ s t) as [s1|] eqn:E; simplify_eq. apply adds_none; [exact (Hacq _ eq_refl)|]. rewrite Est. fn.
    - destruct (entry s h) as [n|] eqn:En; [|done]. unfold erase in Hex. case_decide as E; cbn beta iota zeta in Hex; simplify_eq.
      + apply (adds_del _ _ _ h n); [done|done|]. rewrite Est. fn.
      + apply adds_none; [done|]. rewrite Est. fn.
    - repeat case_match; simplify_eq; (apply adds_none; [done|]; rewrite Est; fn).
    - simplify_eq. apply adds_none; [done|]. rewrite Est. fn.
    - simplify_eq. apply adds_none; [done|]. rewrite Est. fn.
  Qed.
  (** without exceptions, what is constructed comes into being *)
  Definition made (s : state) (t : tid) (x : var) : Prop :=
    (∃ k, omap (mkof P) (stack s t) = [(x, Some k)]) ∨ (omap (mkof P) (stack s t) = [] ∧ is_Some (live s x)).
  Lemma start_adds s t o s' : stack s t = [] → start P VF cfg s t o = Next s' → written s' = written s ∧
    match o with
    | ONew x p ys => ∃ ks, mapM (live s) ys = Some ks ∧ (∀ r, p_make P p ks = Some r → fnds (stack s' t) = [p_key P r] ∧ made s' t x)
    | _ => fnds (stack s' t) = []
    end.
  Proof.
    intros Est Hs.
    assert (Hch : ∀ (s1 : state) h s2, copy_handle VF cfg s1 h = Some s2 → cont s2 = cont s1 ∧ stack s2 t = stack s1 t) by (unfold copy_handle; intros s1 h s2 E; repeat case_match; by simplify_eq).
    assert (Hchs : ∀ hs (s1 s2 : state), copy_handles VF cfg s1 hs = Some s2 → cont s2 = cont s1 ∧ stack s2 t = stack s1 t).
    { induction hs as [|h hs IH]; intros s1 s2 E; simpl in E; [by simplify_eq|]. destruct (copy_handle VF cfg s1 h) as [s3|] eqn:E3; [|done].
      destruct (Hch _ _ _ E3) as [<- <-]. exact (IH _ _ E). }
    unfold written. destruct o as [x p ys|x y|x y|x y|x|x|x y path]; simpl in Hs.
    - destruct (vars s !! x); [done|]. destruct (mapM (live s) ys) as [ks|] eqn:Ek; [|done]. destruct (copy_handles VF cfg s ks) as [s1|] eqn:E1; [|done].
      destruct (Hchs _ _ _ E1) as [Ec _]. destruct (p_make P p ks) as [r|] eqn:Er; simplify_eq; simpl; rewrite Ec; (split; [done|]); exists ks; (split; [done|]); intros r' Hr'; [|congruence].
      assert (r' = r) as -> by congruence. split; [fn|]. left. exists (p_key P r). by rewrite stack_set, decide_True by done.
    - destruct (vars s !! x); [done|]. destruct (live s y) as [h|]; [|done]. destruct (copy_handle VF cfg s h) as [s1|] eqn:E1; [|done].
      destruct (Hch _ _ _ E1) as [Ec Es]. simplify_eq. simpl. rewrite Ec. split; [done|]. change (stack _ t) with (stack s1 t). by rewrite Es, Est.
    - destruct (live s x) as [hx|]; [|done]. destruct (live s y) as [h|]; [|done]. destruct (copy_handle VF cfg s h) as [s1|] eqn:E1; [|done].
      destruct (Hch _ _ _ E1) as [Ec Es]. simplify_eq. simpl. rewrite Ec. split; [done|]. change (fnds (stack (set_stack t [IRelease hx] (set_vars (<[x:=Some h]> (vars s1)) s1)) t) = []). fn.
    - destruct (live s x) as [hx|]; [|done]. destruct (live s y) as [h|]; [|done]. simplify_eq. split; [done|]. change (fnds (stack s t) = []). by rewrite Est.
    - destruct (live s x) as [hx|]; [|done]. simplify_eq. split; [done|]. change (fnds (stack (set_stack t [IRelease hx] (set_vars (delete x (vars s)) s)) t) = []). fn.
    - repeat case_match; simplify_eq. split; [done|]. change (fnds (stack s t) = []). by rewrite Est.
    - destruct (vars s !! x); [done|]. destruct (live s y) as [h|]; [|done]. destruct (inner P VF s h path) as [[h'|]|]; [|done|done].
      destruct (entry s h') as [n|]; [|done]. destruct (copy_handle VF cfg s h') as [s1|] eqn:E1; [|done].
      destruct (Hch _ _ _ E1) as [Ec Es]. simplify_eq. simpl. rewrite Ec. split; [done|]. change (stack _ t) with (stack s1 t). by rewrite Es, Est.
  Qed.

  Ltac om := unfold finish, unwind; rewrite ?stack_log; rewrite ?stack_set, ?decide_True by done; repeat (rewrite ?omap_app, ?omap_release; cbn [omap list_omap mkof app]); try done.
  Lemma exec_made s t i rest c s' x : stack s t = i :: rest → exec P VF cfg s t i rest c = Next s' → c_throw c = false → made s t x → made s' t x.
  Proof.
    intros Est Hex Hc Hm.
    assert (Hgen : omap (mkof P) (stack s' t) = omap (mkof P) (i :: rest) → vars s' = vars s → made s' t x).
    { intros E1 E2. unfold made in *. rewrite Est in Hm. rewrite E1. unfold live in *. by rewrite E2. }
    assert (Hacq : ∀ s1, acquire VF cfg s t = Some s1 → vars s1 = vars s) by (unfold acquire; intros s1 E; repeat case_match; by simplify_eq).
    assert (Hunl : ∀ s1, unlock VF cfg s t = Some s1 → vars s1 = vars s) by (unfold unlock; intros s1 E; repeat case_match; by simplify_eq).
    destruct i; cbn [exec] in Hex; rewrite ?Hc in Hex; unfold erase in Hex.
    - destruct (acquire _ _ s t) as [s1|] eqn:E; simplify_eq. apply Hgen; [om|exact (Hacq _ eq_refl)].
    - repeat case_match; simplify_eq; (apply Hgen; [om|done]).
    - repeat case_match; simplify_eq; (apply Hgen; [om|done]).
    - repeat case_match; simplify_eq; (apply Hgen; [om|done]).
    - repeat case_match; simplify_eq; (apply Hgen; [om|done]).
    - destruct (unlock _ _ s t) as [s1|] eqn:E; simplify_eq. apply Hgen; [om|exact (Hunl _ eq_refl)].
    - repeat case_match; simplify_eq; (apply Hgen; [om|done]).
    - destruct (acquire _ _ s t) as [s1|] eqn:E; simplify_eq. apply Hgen; [om|exact (Hacq _ eq_refl)].
    - destruct (entry s h) as [n|] eqn:En; [|done]. case_decide as E; cbn beta iota zeta in Hex; simplify_eq; (apply Hgen; [om|done]).
    - repeat case_match; simplify_eq; (apply Hgen; [om|done]).
    - simplify_eq. unfold made in *. rewrite Est in Hm. simpl in Hm. destruct Hm as [[k1 E]|[E _]]; [|done]. injection E as -> -> E.
      right. split; [om|]. unfold live. simpl. rewrite lookup_insert. eauto.
    - unfold made in Hm. rewrite Est in Hm. simpl in Hm. by destruct Hm as [[k1 E]|[E _]].
  Qed.
End Machine.
