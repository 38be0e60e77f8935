(** C42: several modules. *)
From Verif Require Import ModulesSpec.

Definition here (a b : nat) : nat := if decide (b = a) then 1 else 0.
Definition refs (f : gmap nat nat) (a : nat) : nat := msum (here a) f.
Record Inv (b : bool) (s : state) (w : hist) : Prop := {
  i_loaded m : m ∈ loaded w ↔ is_Some (ptr s !! m);
  i_dom x : is_Some (live w !! x) ↔ is_Some (fws s !! x);
  i_ptr m h : ptr s !! m = Some h → is_Some (tbl s !! h);
  i_tbl h t : tbl s !! h = Some t → h < nexth s ∧ ∃ m, ptr s !! m = Some h;
  i_reg : if b then (∀ m h, ptr s !! m = Some h → reg s = Some h) ∧ (∀ h, reg s = Some h → ∃ m, ptr s !! m = Some h)
          else reg s = None ∧ ∀ m m' h, ptr s !! m = Some h → ptr s !! m' = Some h → m = m';
  i_in h t k a : tbl s !! h = Some t → t !! k = Some a → ∃ n, cells s !! a = Some (Cell k n);
  i_inj h h' t t' k k' a : tbl s !! h = Some t → tbl s !! h' = Some t' → t !! k = Some a → t' !! k' = Some a → h = h';
  i_cell a c : cells s !! a = Some c → a < nexta s ∧ c_count c = refs (fws s) a ∧ 0 < c_count c ∧ ∃ h t, tbl s !! h = Some t ∧ t !! c_key c = Some a;
  i_live x k m0 a : live w !! x = Some (k, m0) → fws s !! x = Some a →
    ∃ c h t, cells s !! a = Some c ∧ c_key c = k ∧ tbl s !! h = Some t ∧ t !! k = Some a ∧ ∀ m h', ptr s !! m = Some h' → (h' = h ↔ together b m m0);
}.
Global Arguments i_reg {b s w}.

Lemma start_inv b : Inv b start (Hist ∅ ∅).
Proof.
  split; simpl; try done; intros *; rewrite ?lookup_empty; try done.
  - split; [intros H%elem_of_empty; done|by intros [? H]].
  - split; by intros [? H].
  - destruct b; split; try done; intros *; by rewrite lookup_empty.
Qed.

Section steps.
  Context (b : bool).
  Lemma same_holder s w m m' h h' : Inv b s w → ptr s !! m = Some h → ptr s !! m' = Some h' → (h' = h ↔ together b m' m).
  Proof.
    intros HI H H'. pose proof (i_reg HI) as Hr. unfold together. destruct b.
    - destruct Hr as [Hr _]. apply Hr in H, H'. split; [auto|congruence].
    - destruct Hr as [_ Hr]. split; [intros ->; right; eauto|]. intros [?| ->]; [done|congruence].
  Qed.

  Lemma init_inv s w m : Inv b s w → Inv b (init b m s) (Hist ({[m]} ∪ loaded w) (live w)) ∧ fws (init b m s) = fws s ∧ ∃ h t, ptr (init b m s) !! m = Some h ∧ tbl (init b m s) !! h = Some t.
  Proof.
    intros HI. pose proof HI as [H1 H2 H3 H4 H5 H6 H7 H8 H9]. unfold init. destruct (ptr s !! m) as [h|] eqn:Em.
    { split_and!; [|done|destruct (H3 m h Em) as [t ?]; by exists h, t].
      split; simpl; try done. intros m'. rewrite elem_of_union, elem_of_singleton, H1. split; [intros [->|?]; eauto|auto]. }
    assert (Hl : ∀ h m', m' ∈ {[m]} ∪ loaded w ↔ is_Some (<[m:=h]> (ptr s) !! m')).
    { intros h m'. rewrite elem_of_union, elem_of_singleton, H1, lookup_insert_is_Some. destruct (decide (m = m')); naive_solver. }
    assert (∃ h, b = true ∧ reg s = Some h ∧ get b s = (h, s) ∨ (b = false ∨ (∀ m h, ptr s !! m = Some h → False)) ∧ h = nexth s ∧ get b s = create b s) as (h&[(Hb&Hr&->)|(Hb&->&->)]).
    { unfold get. destruct b.
      - destruct (reg s) as [h|] eqn:E; [exists h; auto|]. exists (nexth s). right. split_and!; try done. right. intros m' h' Hh. destruct H5 as [H5 _]. by specialize (H5 m' h' Hh).
      - destruct H5 as [-> _]. exists (nexth s). auto. }
    - (* the shared holder exists *)
      rewrite Hb in *. destruct H5 as [H5 H5']. destruct (H5' h Hr) as [m1 Hm1]. destruct (H3 m1 h Hm1) as [t Ht].
      split_and!; simpl; [|done|exists h, t; by rewrite lookup_insert].
      split; simpl; try done.
      + intros m' h' [[<- <-]|[_ H]]%lookup_insert_Some; eauto.
      + intros h' t' Ht'. destruct (H4 h' t' Ht') as [? [m' Hm']]. split; [done|]. exists m'. rewrite lookup_insert_ne; congruence.
      + split; [|intros h' Hh'; exists m; rewrite lookup_insert; congruence]. intros m' h' [[<- <-]|[_ H]]%lookup_insert_Some; eauto.
      + intros x k m0 a Hx Ha. destruct (H9 x k m0 a Hx Ha) as (c&h'&t'&Hc&Hk&Ht'&Hin&Hm). exists c, h', t'. split_and!; try done.
        intros m' h'' [[<- <-]|[_ H]]%lookup_insert_Some; [|by apply Hm]. split; [intros _; by left|]. intros _.
        destruct (H4 h' t' Ht') as [? [m' Hm']]. specialize (H5 m' h' Hm'). congruence.
    - (* a new holder *)
      unfold create. simpl. split_and!; simpl; [|done|exists (nexth s), ∅; by rewrite !lookup_insert].
      assert (∀ h t, tbl s !! h = Some t → h ≠ nexth s) as Hne by (intros h t Ht; destruct (H4 h t Ht); lia).
      assert (∀ h t k a, <[nexth s:=∅]> (tbl s) !! h = Some t → t !! k = Some a → tbl s !! h = Some t) as Hold
        by (intros h t k a [[<- <-]|[_ ?]]%lookup_insert_Some Hk; [by rewrite lookup_empty in Hk|done]).
      split; simpl; try done.
      + intros m' h' [[<- <-]|[_ H]]%lookup_insert_Some; [rewrite lookup_insert; eauto|]. rewrite lookup_insert_is_Some. destruct (decide (nexth s = h')); [auto|right; eauto].
      + intros h' t' [[<- <-]|[_ H]]%lookup_insert_Some; [split; [lia|exists m; by rewrite lookup_insert]|].
        destruct (H4 h' t' H) as [? [m' Hm']]. split; [lia|]. exists m'. rewrite lookup_insert_ne; congruence.
      + destruct b.
        * destruct Hb as [?|Hb]; [done|]. split; [|intros h' [= <-]; exists m; by rewrite lookup_insert].
          intros m' h' [[<- <-]|[_ H]]%lookup_insert_Some; [done|]. exfalso. eauto.
        * split; [done|]. destruct H5 as [_ H5]. intros m1 m2 h' [[<- <-]|[? Q1]]%lookup_insert_Some [[E2 E3]|[? Q2]]%lookup_insert_Some; try done.
          -- destruct (H3 _ _ Q2) as [t Ht]. by destruct (Hne _ _ Ht).
          -- subst. destruct (H3 _ _ Q1) as [t Ht]. by destruct (Hne _ _ Ht).
          -- eauto.
      + intros h t k a Ht Hk. eauto.
      + intros h h' t t' k k' a Ht Ht' Hk Hk'. eauto.
      + intros a c Hc. destruct (H8 a c Hc) as (?&?&?&h&t&Ht&Hk). split_and!; try done. exists h, t. split; [|done]. rewrite lookup_insert_ne; [done|]. intros <-. by destruct (Hne _ _ Ht).
      + intros x k m0 a Hx Ha. destruct (H9 x k m0 a Hx Ha) as (c&h'&t'&Hc&Hk&Ht'&Hin&Hm). exists c, h', t'. split_and!; try done.
        * rewrite lookup_insert_ne; [done|]. intros <-. by destruct (Hne _ _ Ht').
        * intros m' h'' [[<- <-]|[_ H]]%lookup_insert_Some; [|by apply Hm]. destruct (H4 h' t' Ht') as [? [m' Hm']]. split; [lia|]. intros Ht.
          destruct Hb as [->|Hb]; [|exfalso; eauto]. exfalso. destruct Ht as [?| <-]; [done|]. destruct (proj1 (Hm _ _ Hm') eq_refl) as [?| ->]; [done|congruence].
  Qed.

  Lemma refs_new f x a a' : f !! x = None → refs (<[x:=a]> f) a' = here a' a + refs f a'.
  Proof. intros H. unfold refs. by rewrite msum_new. Qed.
  Lemma refs_del f x a a' : f !! x = Some a → here a' a + refs (delete x f) a' = refs f a'.
  Proof. intros H. unfold refs. by rewrite msum_delete. Qed.

  (** one more handle of an existing entry *)
  Lemma acquire_inv s w x a c k m0 : Inv b s w → fws s !! x = None → cells s !! a = Some c → c_key c = k →
    (∃ h t, tbl s !! h = Some t ∧ t !! k = Some a ∧ ∀ m h', ptr s !! m = Some h' → (h' = h ↔ together b m m0)) →
    Inv b (set (tbl s) (<[a:=Cell (c_key c) (S (c_count c))]> (cells s)) (<[x:=a]> (fws s)) s) (Hist (loaded w) (<[x:=(k,m0)]> (live w))).
  Proof.
    intros [H1 H2 H3 H4 H5 H6 H7 H8 H9] Hx Ha <- (h&t&Ht&Hk&Hm). split; simpl; try done.
    - intros y. rewrite !lookup_insert_is_Some, H2. done.
    - intros h' t' k' a' Ht' Hk'. destruct (H6 h' t' k' a' Ht' Hk') as [n Hn]. destruct (decide (a' = a)) as [->|]; [|exists n; by rewrite lookup_insert_ne].
      rewrite lookup_insert. simplify_eq. by eexists.
    - intros a' c'. rewrite refs_new by done. unfold here. intros [[<- <-]|[Hne Hc]]%lookup_insert_Some.
      + destruct (H8 a c Ha) as (?&?&?&?). simpl. rewrite decide_True by done. split_and!; try done; lia.
      + rewrite decide_False by done. eauto.
    - intros y k' m' a' [[<- [= <- <-]]|[Hne Hy]]%lookup_insert_Some.
      + rewrite lookup_insert. intros [= <-]. rewrite lookup_insert. eexists _, h, t. split_and!; done.
      + rewrite lookup_insert_ne by done. intros Hy'. destruct (H9 y k' m' a' Hy Hy') as (c'&h'&t'&Hc&Hk'&?).
        destruct (decide (a' = a)) as [->|]; [|rewrite lookup_insert_ne by done; exists c', h', t'; split_and!; try done; naive_solver].
        rewrite lookup_insert. eexists _, h', t'. split; [done|]. simpl. simplify_eq. split; [done|]. naive_solver.
  Qed.

  Lemma make_inv s w m x k : Inv b s w → fws s !! x = None → ∃ s', make b m x k s = Next s' ∧ Inv b s' (Hist ({[m]} ∪ loaded w) (<[x:=(k,m)]> (live w))).
  Proof.
    intros HI Hx. destruct (init_inv s w m HI) as (HI'&Hf&h&t&Hp&Ht). unfold make. rewrite Hp, Ht. clear HI. rewrite <- Hf in Hx. clear Hf. revert HI' Hp Ht Hx.
    generalize (init b m s) as s1. clear s. intros s HI Hp Ht Hx. pose proof HI as [H1 H2 H3 H4 H5 H6 H7 H8 H9]. simpl in *.
    destruct (t !! k) as [a|] eqn:Ek.
    - destruct (H6 h t k a Ht Ek) as [n Hn]. rewrite Hn. eexists. split; [done|]. refine (acquire_inv s (Hist ({[m]} ∪ loaded w) (live w)) x a (Cell k n) k m HI Hx Hn eq_refl _).
      exists h, t. split_and!; try done. intros m' h' Hm'. by eapply same_holder.
    - eexists. split; [done|].
      assert (∀ h' t' k' a', tbl s !! h' = Some t' → t' !! k' = Some a' → a' ≠ nexta s) as Hfresh.
      { intros h' t' k' a' Ht' Hk'. destruct (H6 h' t' k' a' Ht' Hk') as [n Hn]. destruct (H8 _ _ Hn). lia. }
      assert (∀ h' t' k' a', <[h:=<[k:=nexta s]> t]> (tbl s) !! h' = Some t' → t' !! k' = Some a' → h' = h ∧ k' = k ∧ a' = nexta s ∨ ∃ t0, tbl s !! h' = Some t0 ∧ t0 !! k' = Some a' ∧ a' ≠ nexta s) as Hold.
      { intros h' t' k' a' [[<- <-]|[? ?]]%lookup_insert_Some Hk'; [|right; eauto 6]. apply lookup_insert_Some in Hk' as [[<- <-]|[? ?]]; [by left|]. right. eauto 6. }
      assert (∀ h' t0 k' a', tbl s !! h' = Some t0 → t0 !! k' = Some a' → ∃ t', <[h:=<[k:=nexta s]> t]> (tbl s) !! h' = Some t' ∧ t' !! k' = Some a') as Hkeep.
      { intros h' t0 k' a' Ht0 Hk'. destruct (decide (h' = h)) as [->|]; [|exists t0; by rewrite lookup_insert_ne]. rewrite lookup_insert. eexists. split; [done|]. simplify_eq.
        rewrite lookup_insert_ne; [done|]. congruence. }
      assert (refs (fws s) (nexta s) = 0) as Hr0.
      { apply msum_zero. intros y a' Hy. unfold here. apply decide_False. intros ->. destruct (proj2 (H2 y)) as [[k' m0] Hl]; [by rewrite Hy|].
        destruct (H9 _ _ _ _ Hl Hy) as (c&_&_&Hc&_). destruct (H8 _ _ Hc). lia. }
      split; simpl; try done.
      + intros y. rewrite !lookup_insert_is_Some, H2. done.
      + intros m' h' Hm'. rewrite lookup_insert_is_Some. destruct (decide (h = h')); [by left|right; eauto].
      + intros h' t' [[<- <-]|[? ?]]%lookup_insert_Some; eauto.
      + intros h' t' k' a' Ht' Hk'. destruct (Hold _ _ _ _ Ht' Hk') as [(->&->&->)|(t0&?&?&?)]; [rewrite lookup_insert; eauto|]. rewrite lookup_insert_ne by done. eauto.
      + intros h1 h2 t1 t2 k1 k2 a' Ht1 Ht2 Hk1 Hk2. destruct (Hold _ _ _ _ Ht1 Hk1) as [(->&->&->)|(t0&?&?&?)], (Hold _ _ _ _ Ht2 Hk2) as [(->&->&Q)|(t0'&?&?&?)]; try done. eauto.
      + intros a' c'. rewrite refs_new by done. unfold here. intros [[<- <-]|[Hne Hc]]%lookup_insert_Some.
        * simpl. rewrite decide_True, Hr0 by done. split_and!; try lia. eexists h, _. rewrite lookup_insert. split; [done|]. by rewrite lookup_insert.
        * rewrite decide_False by done. destruct (H8 _ _ Hc) as (?&?&?&h'&t'&?&?). split_and!; try done; [lia|]. edestruct Hkeep as (t''&?&?); eauto.
      + intros y k' m' a' [[<- [= <- <-]]|[Hne Hy]]%lookup_insert_Some.
        * rewrite lookup_insert. intros [= <-]. rewrite lookup_insert. eexists _, h, _. split_and!; [done|done|by rewrite lookup_insert|by rewrite lookup_insert|].
          intros m' h' Hm'. by eapply same_holder.
        * rewrite lookup_insert_ne by done. intros Hy'. destruct (H9 y k' m' a' Hy Hy') as (c'&h'&t'&Hc&Hk'&Ht'&Hi&Hm).
          destruct (H8 _ _ Hc) as [? _]. rewrite lookup_insert_ne by lia. edestruct Hkeep as (t''&?&?); [done|done|]. exists c', h', t''. split_and!; done.
  Qed.

  Lemma entry_ok s w m x k m0 : Inv b s w → live w !! x = Some (k, m0) → m ∈ loaded w →
    ∃ a c, entry m x s = Some (a, c) ∧ fws s !! x = Some a ∧ cells s !! a = Some c ∧ c_key c = k.
  Proof.
    intros [H1 H2 H3 H4 H5 H6 H7 H8 H9] Hx [h Hp]%H1. destruct (proj1 (H2 x)) as [a Ha]; [by rewrite Hx|].
    destruct (H9 x k m0 a Hx Ha) as (c&h'&t'&Hc&Hk&_). destruct (H3 m h Hp) as [t Ht]. unfold entry. rewrite Hp, Ha, Ht, Hc. by exists a, c.
  Qed.
  Lemma none_none s w x : Inv b s w → live w !! x = None ↔ fws s !! x = None.
  Proof. intros HI. pose proof (i_dom _ _ _ HI x). rewrite !eq_None_not_Some. tauto. Qed.

  Lemma drop_inv s w m x k m0 : Inv b s w → live w !! x = Some (k, m0) → m ∈ loaded w → together b m m0 →
    ∃ s', drop b m x s = Next s' ∧ Inv b s' (Hist (loaded w) (delete x (live w))).
  Proof.
    intros HI Hx Hm Htg. pose proof HI as [H1 H2 H3 H4 H5 H6 H7 H8 H9]. destruct (entry_ok s w m x k m0 HI Hx Hm) as (a&c&He&Ha&Hc&Hk). unfold drop. rewrite He.
    assert (Hrefs : ∀ a', here a' a + refs (delete x (fws s)) a' = refs (fws s) a') by (intros; by apply refs_del).
    destruct (H9 x k m0 a Hx Ha) as (c0&h&t&Hc0&_&Ht&Hin&Hmm). apply H1 in Hm as [hm Hp]. assert (hm = h) as -> by (by eapply Hmm).
    destruct (decide (c_count c = 1)) as [H1c|Hn1].
    - unfold init. rewrite Hp. rewrite Hp, Ht, Hk, decide_True by done. eexists. split; [done|].
      destruct (H8 _ _ Hc) as (_&Hcnt&_&_). specialize (Hrefs a) as Hra. unfold here in Hra. rewrite decide_True in Hra by done.
      assert (refs (delete x (fws s)) a = 0) as Hz by lia. assert (∀ y, y ≠ x → fws s !! y ≠ Some a) as Hno.
      { intros y Hy Hya. unfold refs in Hz. rewrite msum_zero in Hz. specialize (Hz y a). rewrite lookup_delete_ne in Hz by done. specialize (Hz Hya). unfold here in Hz. by rewrite decide_True in Hz. }
      assert (∀ h' t' k' a', <[h:=delete k t]> (tbl s) !! h' = Some t' → t' !! k' = Some a' → a' ≠ a ∧ ∃ t0, tbl s !! h' = Some t0 ∧ t0 !! k' = Some a') as Hold.
      { intros h' t' k' a' [[<- <-]|[? ?]]%lookup_insert_Some Hk'.
        - apply lookup_delete_Some in Hk' as [Hne Hk']. split; [|eauto]. intros ->. destruct (H6 _ _ _ _ Ht Hk') as [n Hn]. rewrite Hc in Hn. by simplify_eq.
        - split; [|eauto]. intros ->. assert (h' = h) as -> by eauto. done. }
      assert (∀ h' t0 k' a', tbl s !! h' = Some t0 → t0 !! k' = Some a' → a' ≠ a → ∃ t', <[h:=delete k t]> (tbl s) !! h' = Some t' ∧ t' !! k' = Some a') as Hkeep.
      { intros h' t0 k' a' Ht0 Hk' Hne. destruct (decide (h' = h)) as [->|]; [|exists t0; by rewrite lookup_insert_ne]. rewrite lookup_insert. eexists. split; [done|]. simplify_eq.
        rewrite lookup_delete_ne; [done|]. congruence. }
      split; simpl; try done.
      + intros y. rewrite !lookup_delete_is_Some, H2. done.
      + intros m' h' Hm'. rewrite lookup_insert_is_Some. destruct (decide (h = h')); [by left|right; eauto].
      + intros h' t' [[<- <-]|[? ?]]%lookup_insert_Some; eauto.
      + intros h' t' k' a' Ht' Hk'. destruct (Hold _ _ _ _ Ht' Hk') as (?&t0&?&?). rewrite lookup_delete_ne by done. eauto.
      + intros h1 h2 t1 t2 k1 k2 a' Ht1 Ht2 Hk1 Hk2. destruct (Hold _ _ _ _ Ht1 Hk1) as (?&?&?&?), (Hold _ _ _ _ Ht2 Hk2) as (?&?&?&?). eauto.
      + intros a' c' [Hne Hc']%lookup_delete_Some. destruct (H8 _ _ Hc') as (?&?&?&h'&t'&?&?). specialize (Hrefs a'). unfold here in Hrefs. rewrite decide_False in Hrefs by done.
        split_and!; try done; [lia|]. edestruct Hkeep as (t''&?&?); eauto.
      + intros y k' m' a' [Hne Hy]%lookup_delete_Some. rewrite lookup_delete_ne by done. intros Hy'. assert (a' ≠ a) by (intros ->; by eapply Hno).
        destruct (H9 y k' m' a' Hy Hy') as (c'&h'&t'&Hc'&Hk'&Ht'&Hi&Hm). edestruct Hkeep as (t''&?&?); [done|done|done|]. exists c', h', t''. rewrite lookup_delete_ne by done. split_and!; done.
    - eexists. split; [done|]. split; simpl; try done.
      + intros y. rewrite !lookup_delete_is_Some, H2. done.
      + intros h' t' k' a' Ht' Hk'. destruct (H6 h' t' k' a' Ht' Hk') as [n Hn]. destruct (decide (a' = a)) as [->|]; [|exists n; by rewrite lookup_insert_ne].
        rewrite lookup_insert. rewrite Hc in Hn. simplify_eq. simpl. by eexists.
      + intros a' c'. specialize (Hrefs a'). unfold here in Hrefs. intros [[<- <-]|[Hne Hc']]%lookup_insert_Some.
        * destruct (H8 _ _ Hc) as (?&?&?&?). simpl. rewrite decide_True in Hrefs by done. split_and!; try done; lia.
        * rewrite decide_False in Hrefs by done. destruct (H8 _ _ Hc') as (?&?&?&?). split_and!; try done; lia.
      + intros y k' m' a' [Hne Hy]%lookup_delete_Some. rewrite lookup_delete_ne by done. intros Hy'. destruct (H9 y k' m' a' Hy Hy') as (c'&h'&t'&Hc'&Hk'&?).
        destruct (decide (a' = a)) as [->|]; [|rewrite lookup_insert_ne by done; exists c', h', t'; split_and!; try done; naive_solver].
        rewrite lookup_insert. eexists _, h', t'. split; [done|]. simpl. rewrite Hc in Hc'. simplify_eq. split; [done|]. naive_solver.
  Qed.

  Lemma unload_inv s w m : Inv b s w → polite b w (Unload m) → ∃ s', unload b m s = Next s' ∧ Inv b s' (Hist (loaded w ∖ {[m]}) (live w)).
  Proof.
    intros HI Hpol. pose proof HI as [H1 H2 H3 H4 H5 H6 H7 H8 H9]. unfold unload. simpl in Hpol. destruct (ptr s !! m) as [h|] eqn:Em.
    2:{ eexists. split; [done|]. split; simpl; try done. intros m'. rewrite elem_of_difference, elem_of_singleton, H1. split; [naive_solver|]. intros H. split; [done|]. intros ->. rewrite Em in H. by destruct H. }
    assert (Hl : ∀ m', m' ∈ loaded w ∖ {[m]} ↔ is_Some (delete m (ptr s) !! m')).
    { intros m'. rewrite elem_of_difference, elem_of_singleton, H1, lookup_delete_is_Some. naive_solver. }
    simpl. destruct (b && existsb (λ p, bool_decide (p.2 = h)) (map_to_list (delete m (ptr s)))) eqn:Ex.
    - apply andb_true_iff in Ex as [Hb Ex]. apply existsb_exists in Ex as ([m1 h1]&Hin&Eh%bool_decide_eq_true). simpl in Hin, Eh. subst h1.
      rewrite <- elem_of_list_In, elem_of_map_to_list in Hin. apply lookup_delete_Some in Hin as [Hne1 Hin].
      eexists. split; [done|]. rewrite Hb in *. destruct H5 as [H5 H5']. split; simpl; try done.
      + intros m' h' [_ ?]%lookup_delete_Some. eauto.
      + intros h' t' Ht'. destruct (H4 h' t' Ht') as [? [m' Hm']]. split; [done|]. exists m1. rewrite lookup_delete_ne by done. apply H5 in Hin as Q1, Hm' as Q2. congruence.
      + split; [intros m' h' [_ ?]%lookup_delete_Some; eauto|]. intros h' Hh'. exists m1. rewrite lookup_delete_ne by done. apply H5 in Hin as Q1. congruence.
      + intros x k m0 a Hx Ha. destruct (H9 x k m0 a Hx Ha) as (c&h'&t'&Hc&Hk&Ht'&Hi&Hm). exists c, h', t'. split_and!; try done.
        intros m' h'' [_ ?]%lookup_delete_Some. by apply Hm.
    - destruct (H3 m h Em) as [t Ht]. unfold destroy. simpl. rewrite Ht.
      assert (Honly : ∀ m', ptr s !! m' = Some h → m' = m).
      { intros m' Hm'. destruct b; [|destruct H5 as [_ H5]; eauto]. simpl in Ex. destruct (decide (m' = m)) as [|Hne]; [done|]. exfalso. rewrite <- not_true_iff_false in Ex. apply Ex.
        apply existsb_exists. exists (m', h). split; [|by apply bool_decide_eq_true]. rewrite <- elem_of_list_In, elem_of_map_to_list. by rewrite lookup_delete_ne. }
      assert (t = ∅) as ->.
      { apply map_empty. intros k. apply eq_None_not_Some. intros [a Ha]. destruct (H6 _ _ _ _ Ht Ha) as [n Hn]. destruct (H8 _ _ Hn) as (_&Hr&Hpos&_). rewrite Hr in Hpos.
        apply msum_pos in Hpos as (x&a'&Hx&Hh). unfold here in Hh. destruct (decide (a' = a)) as [->|]; [|lia].
        destruct (proj2 (H2 x)) as [[k' m0] Hl0]; [by rewrite Hx|]. destruct (H9 _ _ _ _ Hl0 Hx) as (c&h'&t'&Hc&Hk&Ht'&Hi&Hm). assert (h' = h) as -> by eauto.
        destruct (Hpol _ _ _ Hl0) as (m'&Hm'&Hne&Htg); [by apply (Hm m h Em)|]. apply H1 in Hm' as [h'' Hm']. assert (h'' = h) as -> by (by eapply Hm). apply Hne. auto. }
      rewrite map_to_list_empty. simpl. eexists. split; [done|].
      assert (∀ h' t' k a, tbl s !! h' = Some t' → t' !! k = Some a → delete h (tbl s) !! h' = Some t') as Hkeep.
      { intros h' t' k a Ht' Hk. rewrite lookup_delete_ne; [done|]. intros <-. rewrite Ht in Ht'. injection Ht' as <-. by rewrite lookup_empty in Hk. }
      split; simpl; try done.
      + intros m' h' [Hne Hm']%lookup_delete_Some. rewrite lookup_delete_is_Some. split; [|eauto]. intros <-. apply Hne. by rewrite (Honly m').
      + intros h' t' [Hne Ht']%lookup_delete_Some. destruct (H4 h' t' Ht') as [? [m' Hm']]. split; [done|]. exists m'. rewrite lookup_delete_ne; congruence.
      + destruct b; [|split; [done|]; intros m1 m2 h' [_ ?]%lookup_delete_Some [_ ?]%lookup_delete_Some; destruct H5; eauto]. split; [|done]. destruct H5 as [H5 _].
        intros m' h' [Hne Hm']%lookup_delete_Some. exfalso. apply Hne. symmetry. apply Honly. apply H5 in Em as Q. pose proof (H5 _ _ Hm'). congruence.
      + intros h' t' k a [_ ?]%lookup_delete_Some. eauto.
      + intros h1 h2 t1 t2 k1 k2 a [_ ?]%lookup_delete_Some [_ ?]%lookup_delete_Some. eauto.
      + intros a c Hc. destruct (H8 a c Hc) as (?&?&?&h'&t'&?&?). split_and!; try done. exists h', t'. eauto.
      + intros x k m0 a Hx Ha. destruct (H9 x k m0 a Hx Ha) as (c&h'&t'&Hc&Hk&Ht'&Hi&Hm). exists c, h', t'. split_and!; try done; [by eapply Hkeep|].
        intros m' h'' [_ ?]%lookup_delete_Some. by apply Hm.
  Qed.

  Lemma step_inv s w l : Inv b s w → polite b w l → match step b s l with Next s' => Inv b s' (past w l) | Stuck => Inv b s (past w l) | Undef => False end.
  Proof.
    intros HI Hpol. destruct l as [m|m x k|m x y|m x|m x|m]; simpl in *.
    - by apply init_inv.
    - destruct (decide (is_Some (fws s !! x))) as [Hs|Hs].
      + apply (i_dom _ _ _ HI) in Hs as [v ->]. done.
      + apply eq_None_not_Some in Hs. destruct (make_inv s w m x k HI Hs) as (s'&->&HI'). apply (none_none _ _ _ HI) in Hs. by rewrite Hs.
    - destruct (live w !! x) as [[k m0]|] eqn:Ex.
      + destruct (live w !! y) eqn:Ey.
        * rewrite decide_False; [done|]. intros [_ Hy]. by apply (none_none _ _ _ HI) in Hy; rewrite Hy in Ey.
        * apply (none_none _ _ _ HI) in Ey. rewrite decide_True; [|split; [apply (i_dom _ _ _ HI); by rewrite Ex|done]].
          destruct (entry_ok s w m x k m0 HI Ex) as (a&c&He&Ha&Hc&Hk); [by apply Hpol|]. unfold copy. rewrite He. eapply acquire_inv; try done.
          destruct (i_live _ _ _ HI _ _ _ _ Ex Ha) as (c'&h&t&?&?&?&?&?). by exists h, t.
      + rewrite decide_False; [done|]. intros [Hx _]. apply (i_dom _ _ _ HI) in Hx. rewrite Ex in Hx. by destruct Hx.
    - destruct (live w !! x) as [[k m0]|] eqn:Ex.
      + rewrite decide_True; [|apply (i_dom _ _ _ HI); by rewrite Ex]. destruct (Hpol _ _ eq_refl). by destruct (drop_inv s w m x k m0) as (s'&->&?).
      + rewrite decide_False; [by rewrite delete_notin; destruct w|]. intros Hx. apply (i_dom _ _ _ HI) in Hx. rewrite Ex in Hx. by destruct Hx.
    - destruct (live w !! x) as [[k m0]|] eqn:Ex.
      + rewrite decide_True; [|apply (i_dom _ _ _ HI); by rewrite Ex]. destruct (entry_ok s w m x k m0 HI Ex) as (a&c&->&_); [by apply Hpol|done].
      + rewrite decide_False; [done|]. intros Hx. apply (i_dom _ _ _ HI) in Hx. rewrite Ex in Hx. by destruct Hx.
    - by destruct (unload_inv s w m HI Hpol) as (s'&->&?).
  Qed.

  Lemma run_inv ls : ∀ ls0 s, Inv b s (history ls0) → (∀ ls1 l ls2, ls = ls1 ++ l :: ls2 → polite b (history (ls0 ++ ls1)) l) →
    ∃ s', run b s ls = Next s' ∧ Inv b s' (history (ls0 ++ ls)).
  Proof.
    induction ls as [|l ls IH]; intros ls0 s HI Hp; simpl; [exists s; by rewrite app_nil_r|].
    assert (polite b (history ls0) l) as Hl by (specialize (Hp [] l ls eq_refl); by rewrite app_nil_r in Hp).
    pose proof (step_inv s _ l HI Hl) as H. replace (past (history ls0) l) with (history (ls0 ++ [l])) in H by (unfold history; by rewrite foldl_app).
    replace (ls0 ++ l :: ls) with ((ls0 ++ [l]) ++ ls) by (by rewrite <- app_assoc).
    destruct (step b s l) as [s1| |]; [apply IH; [done|]|apply IH; [done|]|done]; intros ls1 l' ls2 ->; rewrite <- app_assoc; by apply (Hp (l :: ls1) l' ls2).
  Qed.

  Lemma eq_value s w m x y k1 m1 k2 m2 : Inv b s w → m ∈ loaded w → live w !! x = Some (k1, m1) → live w !! y = Some (k2, m2) →
    value s m x = Some k1 ∧ eqop s m x y = Some (bool_decide (k1 = k2 ∧ together b m1 m2)).
  Proof.
    intros HI Hm Hx Hy. destruct (entry_ok _ _ m _ _ _ HI Hx Hm) as (a&c&E1&F1&C1&K1), (entry_ok _ _ m _ _ _ HI Hy Hm) as (a'&c'&E2&F2&C2&K2).
    unfold value, eqop. rewrite E1, E2. simpl. split; [by rewrite K1|]. f_equal. apply bool_decide_ext.
    destruct (i_live _ _ _ HI _ _ _ _ Hx F1) as (?&h1&t1&_&_&T1&I1&P1), (i_live _ _ _ HI _ _ _ _ Hy F2) as (?&h2&t2&_&_&T2&I2&P2).
    destruct (i_tbl _ _ _ HI _ _ T1) as [_ [u1 U1]], (i_tbl _ _ _ HI _ _ T2) as [_ [u2 U2]].
    split.
    - intros <-. split; [congruence|]. assert (h1 = h2) as <- by (by eapply (i_inj _ _ _ HI)). unfold together in *.
      destruct (proj1 (P1 _ _ U1) eq_refl) as [?| ->]; [by left|]. destruct (proj1 (P2 _ _ U1) eq_refl) as [?| ->]; [by left|]. by right.
    - intros [<- Ht]. assert (h2 = h1) as ->; [|congruence]. apply (P1 _ _ U2). destruct (proj1 (P2 _ _ U2) eq_refl) as [?| ->]; [by left|].
      destruct Ht as [?| ->]; [by left|by right].
  Qed.
End steps.

(** general form: every polite program is free of undefined behaviour, values
    are those given, and equality is equality of values among modules which
    share a factory *)
Theorem C42_modules b ls : all_polite b ls → ∃ s, run b start ls = Next s ∧ ∀ m x y k1 m1 k2 m2,
  m ∈ loaded (history ls) → live (history ls) !! x = Some (k1, m1) → live (history ls) !! y = Some (k2, m2) →
  value s m x = Some k1 ∧ eqop s m x y = Some (bool_decide (k1 = k2 ∧ together b m1 m2)).
Proof.
  intros Hp. destruct (run_inv b ls [] start (start_inv b) Hp) as (s&Hr&HI). exists s. split; [done|]. intros *. by apply eq_value.
Qed.

(** intermodule_holder: equality across modules is as within one module *)
Theorem C42_intermodule ls : all_polite true ls → ∃ s, run true start ls = Next s ∧ ∀ m x y k1 m1 k2 m2,
  m ∈ loaded (history ls) → live (history ls) !! x = Some (k1, m1) → live (history ls) !! y = Some (k2, m2) →
  eqop s m x y = Some (bool_decide (k1 = k2)).
Proof.
  intros Hp. destruct (C42_modules true ls Hp) as (s&Hr&H). exists s. split; [done|]. intros m x y k1 m1 k2 m2 Hm Hx Hy. destruct (H m x y k1 m1 k2 m2 Hm Hx Hy) as [_ ->].
  f_equal. apply bool_decide_ext. unfold together. naive_solver.
Qed.
(** ... with one factory, whatever modules are loaded and in whatever order *)
Theorem C42_one_factory ls : all_polite true ls → ∃ s, run true start ls = Next s ∧ size (tbl s) ≤ 1 ∧
  ∀ m m', m ∈ loaded (history ls) → m' ∈ loaded (history ls) → is_Some (ptr s !! m) ∧ ptr s !! m = ptr s !! m'.
Proof.
  intros Hp. destruct (run_inv true ls [] start (start_inv true) Hp) as (s&Hr&HI). exists s. split; [done|]. destruct (i_reg HI) as [Hr1 Hr2]. simpl in HI. split.
  - destruct (reg s) as [h|] eqn:Er.
    + assert (∃ t, tbl s !! h = Some t) as [t Ht]. { destruct (Hr2 h eq_refl) as [m Hm]. destruct (i_ptr _ _ _ HI _ _ Hm). eauto. }
      assert (tbl s = {[h := t]}) as ->; [|by rewrite map_size_singleton]. apply map_eq. intros h'. destruct (decide (h' = h)) as [->|]; [by rewrite lookup_singleton|].
      rewrite lookup_singleton_ne by done. apply eq_None_not_Some. intros [t' Ht']. destruct (i_tbl _ _ _ HI _ _ Ht') as [_ [m Hm]]. apply Hr1 in Hm. congruence.
    + assert (tbl s = ∅) as ->; [|by rewrite map_size_empty; lia]. apply map_empty. intros h. apply eq_None_not_Some. intros [t' Ht']. destruct (i_tbl _ _ _ HI _ _ Ht') as [_ [m Hm]]. apply Hr1 in Hm. congruence.
  - intros m m' [h Hm]%(i_loaded _ _ _ HI) [h' Hm']%(i_loaded _ _ _ HI). rewrite Hm. split; [done|]. apply Hr1 in Hm as Q1, Hm' as Q2. congruence.
Qed.
(** static_holder: flyweights created in different modules never compare equal *)
Theorem C42_static ls : all_polite false ls → ∃ s, run false start ls = Next s ∧ ∀ m x y k1 m1 k2 m2,
  m ∈ loaded (history ls) → live (history ls) !! x = Some (k1, m1) → live (history ls) !! y = Some (k2, m2) →
  eqop s m x y = Some (bool_decide (k1 = k2 ∧ m1 = m2)).
Proof.
  intros Hp. destruct (C42_modules false ls Hp) as (s&Hr&H). exists s. split; [done|]. intros m x y k1 m1 k2 m2 Hm Hx Hy. destruct (H m x y k1 m1 k2 m2 Hm Hx Hy) as [_ ->].
  f_equal. apply bool_decide_ext. unfold together. naive_solver.
Qed.

Fixpoint politely (b : bool) (w : hist) (ls : list label) : Prop :=
  match ls with [] => True | l :: ls => polite b w l ∧ politely b (past w l) ls end.
Lemma politely_all b ls : politely b (Hist ∅ ∅) ls → all_polite b ls.
Proof.
  intros H ls1 l ls2 ->. unfold history. revert H. generalize (Hist ∅ ∅). induction ls1 as [|l1 ls1 IH]; intros w; simpl; [by intros []|]. intros [_ H]. by apply IH.
Qed.
Local Ltac polite := repeat split; simpl; intros; set_solver.

(** static_holder: equal values created in different modules compare unequal *)
Theorem C42_static_refuted : ∃ ls m x y k m1 m2, all_polite false ls ∧ m ∈ loaded (history ls) ∧
  live (history ls) !! x = Some (k, m1) ∧ live (history ls) !! y = Some (k, m2) ∧
  ∃ s, run false start ls = Next s ∧ eqop s m x y = Some false ∧ value s m x = value s m y.
Proof.
  exists [Make 1 10 7; Make 2 20 7], 1, 10, 20, 7, 1, 2. split_and!; [apply politely_all; polite|simpl; set_solver|done|done|].
  eexists. split; [vm_compute; reflexivity|]. by vm_compute.
Qed.
(** static_holder: a flyweight destroyed by the code of another module; both
    modules have initialized the class *)
Theorem C42_static_release_refuted : ∃ ls m x k m0, all_polite false ls ∧ m ∈ loaded (history ls) ∧ m0 ∈ loaded (history ls) ∧
  live (history ls) !! x = Some (k, m0) ∧ run false start (ls ++ [Drop m x]) = Undef.
Proof. exists [Make 1 10 7; Init 2], 2, 10, 7, 1. split_and!; [apply politely_all; polite|simpl; set_solver|simpl; set_solver|done|by vm_compute]. Qed.
(** either holder: a module must have initialized the class before it uses a
    flyweight received from another *)
Theorem C42_uninitialized_refuted b : ∃ ls m x k m0, all_polite b ls ∧ live (history ls) !! x = Some (k, m0) ∧ run b start (ls ++ [Read m x]) = Undef.
Proof. exists [Make 1 10 7], 2, 10, 7, 1. split_and!; [apply politely_all; destruct b; polite|done|by destruct b; vm_compute]. Qed.
(** static_holder: a module is unloaded while a flyweight created in it is in
    use elsewhere; intermodule_holder keeps the factory *)
Theorem C42_unload_refuted : ∃ ls m x, all_polite true (ls ++ [Read m x]) ∧
  (∃ s, run true start (ls ++ [Read m x]) = Next s ∧ value s m x = Some 7) ∧ run false start (ls ++ [Read m x]) = Undef.
Proof.
  exists [Init 2; Make 1 10 7; Unload 1], 2, 10. split_and!; [|eexists; split; [vm_compute; reflexivity|by vm_compute]|by vm_compute].
  apply politely_all. repeat split; simpl; intros; try set_solver. exists 2. unfold together. set_solver.
Qed.

Definition ex_prog : list label :=
  [Init 3; Make 1 10 7; Make 2 20 7; Copy 3 20 30; Unload 2; Make 3 31 8; Drop 1 20; Unload 1; Drop 3 10; Read 3 30; Drop 3 30; Make 2 40 8].
Example ex_polite : all_polite true ex_prog.
Proof.
  apply politely_all. repeat split; simpl; intros; try (unfold together; set_solver).
  - exists 1. unfold together. set_solver.
  - exists 3. unfold together. set_solver.
Qed.
Example ex_run : match run true start ex_prog with
  | Next s => eqop s 3 31 40 = Some true ∧ value s 2 31 = Some 8 ∧ size (cells s) = 1 ∧ size (tbl s) = 1 ∧ c_count <$> (cells s !! 1) = Some 2 | _ => False end.
Proof. vm_compute. split_and!; reflexivity. Qed.
Example ex_static_polite : all_polite false [Make 1 10 7; Make 2 20 7; Copy 2 10 11; Make 2 21 7; Drop 1 10; Drop 1 11; Unload 1; Make 1 10 7].
Proof.
  apply politely_all. cbn [politely]. split_and!; try done; unfold polite.
  - intros k m0 H. vm_compute in H. simplify_eq. split; [simpl; set_solver|by right].
  - intros k m0 H. vm_compute in H. simplify_eq. split; [simpl; set_solver|by right].
  - intros x k m0 H [|<-]; [done|]. exfalso. apply elem_of_map_to_list in H. vm_compute in H. apply elem_of_list_In in H. by destruct H as [H|[H|[]]].
Qed.

Print Assumptions C42_modules.
Print Assumptions C42_intermodule.
Print Assumptions C42_one_factory.
Print Assumptions C42_static.
Print Assumptions C42_static_refuted.
Print Assumptions C42_static_release_refuted.
Print Assumptions C42_uninitialized_refuted.
Print Assumptions C42_unload_refuted.
