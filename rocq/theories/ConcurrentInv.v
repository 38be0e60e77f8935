(** Invariant of the machine of [Concurrent.v]. *)
From Verif Require Export Concurrent.

(** Laws a value policy must satisfy (see [PropConcurrent.v] for the three
    policies).  An entry left without value by a constructor that threw may
    be completed by a creation with other arguments of equivalent key. *)
Record policy_ok {K A R V} (eqv : K → K → bool) (good : R → Prop) (P : Core.policy K A R V) : Prop := {
  po_make : ∀ p ks r, p_make P p ks = Some r → good r ∧ ∀ a, occ a (p_kids P r) = occ a ks;
  po_build : ∀ p ks r p' ks' r', p_make P p ks = Some r → p_make P p' ks' = Some r' →
    eqv (p_key P r') (p_key P r) = true → p_val P r' = None →
    is_Some (p_val P (p_build P p r')) ∧ good (p_build P p r') ∧
    eqv (p_key P (p_build P p r')) (p_key P r') = true ∧
    ∀ a, occ a (p_kids P (p_build P p r')) = occ a (p_kids P r');
}.

Definition at_ (a h : addr) : nat := if decide (a = h) then 1 else 0.
Lemma at_eq a : at_ a a = 1.
Proof. unfold at_. by rewrite decide_True. Qed.
Lemma at_ne a b : a ≠ b → at_ a b = 0.
Proof. intros. unfold at_. by rewrite decide_False. Qed.
Lemma at_pos a b : 0 < at_ a b → a = b.
Proof. unfold at_. case_decide; [done|lia]. Qed.

Section Inv.
  Context {K A R V : Type}.
  Context (P : Core.policy K A R V) (eqv : K → K → bool) (good : R → Prop).
  Context (Heq : equivalence eqv) (HP : policy_ok eqv good P).
  Notation state := (state (K:=K) (A:=A) (R:=R)).
  Notation instr := (instr (K:=K) (A:=A) (R:=R)).
  Notation node := (node (R:=R)).
  Implicit Types (s : state) (n m : node) (a b h : addr) (t : tid) (i : instr) (l rest : list instr).

  (** handles to [a] owned by an instruction: temporaries, objects being
      built, swapped or destroyed *)
  Definition own (a : addr) (i : instr) : nat :=
    match i with
    | IMake _ _ _ got => occ a got
    | IEnter _ _ r => occ a (p_kids P r)
    | IVisit _ _ _ ks _ | IAddRef _ _ ks _ => occ a ks
    | ILeave _ h ks _ => at_ a h + occ a ks
    | IRelease h | IBind _ h _ | IDup h _ => at_ a h
    | ISwap1 _ _ hx hy => at_ a hx + at_ a hx + at_ a hy
    | ISwap2 _ _ hx hy => at_ a hx + at_ a hy + at_ a hy
    | ISwap3 _ _ hx hy => at_ a hx + at_ a hy
    | _ => 0
    end.
  (** exclusive access to [a] *)
  Definition acc (a : addr) (i : instr) : nat :=
    match i with
    | IVisit _ h _ _ _ | IAddRef _ h _ _ | ILeave _ h _ _ | ITest h | IErase h | ISkip h => at_ a h
    | _ => 0
    end.
  Definition making (x : var) (i : instr) : nat :=
    match i with
    | IMake y _ _ _ | IEnter y _ _ | IVisit y _ _ _ _ | IAddRef y _ _ _ | ILeave y _ _ _ | IBind y _ _ | IAbort y => at_ x y
    | ISwap1 y z _ _ | ISwap2 y z _ _ | ISwap3 y z _ _ => at_ x y + at_ x z
    | _ => 0
    end.
  Definition gc_only (i : instr) : Prop := match i with ITest _ | IErase _ | ISkip _ => True | _ => False end.
  Definition is_release (i : instr) : Prop := match i with IRelease _ => True | _ => False end.

  Definition vcount (a : addr) (o : option addr) : nat := match o with Some h => at_ a h | None => 0 end.
  Definition tsum (f : instr → nat) (s : state) : nat := msum (lsum f) (stacks s).
  Definition vsum (a : addr) (s : state) : nat := msum (vcount a) (vars s).
  Definition hsum (a : addr) (s : state) : nat := msum (λ n, occ a (p_kids P (n_rep n))) (ents s).
  (** number of flyweight objects and temporaries referring to entry [a] *)
  Definition cnt (s : state) (a : addr) : nat := vsum a s + hsum a s + tsum (own a) s.

  Definition fits s h k : Prop := ∃ n, ents s !! h = Some n ∧ eqv (p_key P (n_rep n)) k = true.
  Definition built s h : Prop := ∃ n, ents s !! h = Some n ∧ is_Some (p_val P (n_rep n)).
  Definition iok s i : Prop :=
    match i with
    | IEnter x p r => ∃ ks, p_make P p ks = Some r
    | IVisit x h p ks k => (∃ ks0 r0, p_make P p ks0 = Some r0 ∧ p_key P r0 = k) ∧ fits s h k
    | IAddRef x h ks k => fits s h k ∧ built s h
    | ILeave x h _ k | IBind x h k => fits s h k
    | IErase h => cnt s h = 0
    | _ => True
    end.
  Definition has (o : option tid) t : nat := if decide (o = Some t) then 1 else 0.

  Record Inv s : Prop := {
    i_cnt a n : ents s !! a = Some n → n_cnt n = Z.of_nat (cnt s a) ∧ (p_val P (n_rep n) = None → cnt s a = 0);
    i_gone a : ents s !! a = None → cnt s a = 0;
    i_acc a t : lsum (acc a) (stack s t) = match ents s !! a with Some n => has (n_own n) t | None => 0 end;
    i_uniq a b n m : ents s !! a = Some n → ents s !! b = Some m → eqv (p_key P (n_rep n)) (p_key P (n_rep m)) = true → a = b;
    i_good a n : ents s !! a = Some n → good (n_rep n);
    i_low a n : ents s !! a = Some n → a < clock s;
    i_kids a n b : ents s !! a = Some n → b ∈ p_kids P (n_rep n) → b < a;
    i_made a n : ents s !! a = Some n → p_val P (n_rep n) = None → ∃ p ks, p_make P p ks = Some (n_rep n);
    i_ok t i : i ∈ stack s t → iok s i;
    i_vars x : tsum (making x) s = match vars s !! x with Some None => 1 | _ => 0 end;
    i_gc t i : i ∈ stack s t → (gc_only i → t = gc_tid) ∧ (t = gc_tid → gc_only i ∨ is_release i);
    i_todo : match todo s with None => stack s gc_tid = [] | Some X => X ⊆ dom (ents s) ∧ ∀ a n, ents s !! a = Some n → n_own n = Some gc_tid → a ∉ X end;
  }.

  (** ** sums *)
  Lemma stack_set s t l t' : stack (set_stack t l s) t' = if decide (t' = t) then l else stack s t'.
  Proof. unfold stack, set_stack; simpl. case_decide; subst; [by rewrite lookup_insert|by rewrite lookup_insert_ne]. Qed.
  Lemma tsum_set f s t l : tsum f (set_stack t l s) + lsum f (stack s t) = tsum f s + lsum f l.
  Proof.
    unfold tsum, stack, set_stack; simpl. destruct (stacks s !! t) as [k0|] eqn:E; simpl; [by apply msum_upd|].
    rewrite msum_new by done. rewrite lsum_nil. lia.
  Qed.
  Lemma tsum_elem f s t i : i ∈ stack s t → f i ≤ tsum f s.
  Proof.
    intros H. apply (lsum_elem f) in H. unfold tsum, stack in *. destruct (stacks s !! t) as [k0|] eqn:E; simpl in *.
    - eapply (msum_ge (lsum f)) in E. lia.
    - rewrite lsum_nil in H. lia.
  Qed.
  Lemma lsum_release0 (f : instr → nat) ks : (∀ a, f (IRelease a) = 0) → lsum f (map IRelease ks) = 0.
  Proof. intros H. induction ks; [done|]. simpl. rewrite lsum_cons, H. lia. Qed.
  Lemma lsum_own_release a ks : lsum (own a) (map IRelease ks) = occ a ks.
  Proof. induction ks; [done|]. simpl. rewrite lsum_cons, IHks, occ_cons. done. Qed.
  Lemma lsum_acc_release a ks : lsum (acc a) (map IRelease ks) = 0.
  Proof. by apply lsum_release0. Qed.
  Lemma lsum_making_release x ks : lsum (making x) (map IRelease ks) = 0.
  Proof. by apply lsum_release0. Qed.
  Lemma vsum_new a x o s : vars s !! x = None → msum (vcount a) (<[x:=o]> (vars s)) = vcount a o + vsum a s.
  Proof. intros H. unfold vsum. by rewrite msum_new. Qed.
  Lemma vsum_upd a x o o' s : vars s !! x = Some o → msum (vcount a) (<[x:=o']> (vars s)) + vcount a o = vsum a s + vcount a o'.
  Proof. intros H. unfold vsum. by apply msum_upd. Qed.
  Lemma vsum_del a x o s : vars s !! x = Some o → vcount a o + msum (vcount a) (delete x (vars s)) = vsum a s.
  Proof. intros H. unfold vsum. by apply msum_delete. Qed.

  (** ** general change of one entry and one stack *)
  Lemma cnt_frame s s' t l a : hsum a s' = hsum a s → stacks s' = <[t:=l]> (stacks s) →
    cnt s' a + vsum a s + lsum (own a) (stack s t) = cnt s a + vsum a s' + lsum (own a) l.
  Proof.
    intros Hh Hs. unfold cnt. rewrite Hh. pose proof (tsum_set (own a) s t l) as Ht.
    assert (tsum (own a) s' = tsum (own a) (set_stack t l s)) as -> by (unfold tsum; by rewrite Hs). lia.
  Qed.
  Lemma making_frame s s' t l x : stacks s' = <[t:=l]> (stacks s) →
    tsum (making x) s' + lsum (making x) (stack s t) = tsum (making x) s + lsum (making x) l.
  Proof.
    intros Hs. pose proof (tsum_set (making x) s t l) as Ht.
    assert (tsum (making x) s' = tsum (making x) (set_stack t l s)) as -> by (unfold tsum; by rewrite Hs). lia.
  Qed.
  Lemma stack_frame s s' t l t' : stacks s' = <[t:=l]> (stacks s) → stack s' t' = if decide (t' = t) then l else stack s t'.
  Proof. intros Hs. rewrite <- stack_set. unfold stack. by rewrite Hs. Qed.
  Lemma hsum_put a h n n' s E : ents s !! h = Some n → E = <[h:=n']> (ents s) →
    (∀ b, occ b (p_kids P (n_rep n')) = occ b (p_kids P (n_rep n))) →
    msum (λ n, occ a (p_kids P (n_rep n))) E = hsum a s.
  Proof.
    intros Hh -> Hk. unfold hsum. pose proof (msum_upd (λ n, occ a (p_kids P (n_rep n))) (ents s) h n n' Hh) as Hm. simpl in Hm.
    rewrite Hk in Hm. lia.
  Qed.

  Definition gc_fine t i : Prop := (gc_only i → t = gc_tid) ∧ (t = gc_tid → gc_only i ∨ is_release i).
  Definition mk (o : option (option addr)) : nat := match o with Some None => 1 | _ => 0 end.

  Lemma vars_frame s s' t old new rest x : Inv s → stack s t = old ++ rest → stacks s' = <[t:=new ++ rest]> (stacks s) →
    lsum (making x) new + mk (vars s !! x) = lsum (making x) old + mk (vars s' !! x) →
    tsum (making x) s' = match vars s' !! x with Some None => 1 | _ => 0 end.
  Proof.
    intros HI Hst Hs Hx. pose proof (making_frame s s' t (new ++ rest) x Hs) as Hm. rewrite Hst, !lsum_app in Hm.
    pose proof (i_vars _ HI x) as Hv. unfold mk in Hx. destruct (vars s !! x) as [[|]|], (vars s' !! x) as [[|]|]; lia.
  Qed.

  (** nothing changes but one stack, the variables and the log *)
  Lemma inv_move s s' t old new rest : Inv s → stack s t = old ++ rest →
    ents s' = ents s → clock s' = clock s → stacks s' = <[t:=new ++ rest]> (stacks s) → todo s' = todo s →
    (old = [] → t ≠ gc_tid) →
    (∀ a, vsum a s' + lsum (own a) new = vsum a s + lsum (own a) old) →
    (∀ a, lsum (acc a) new = lsum (acc a) old) →
    (∀ i, i ∈ new → iok s i ∧ gc_fine t i) →
    (∀ x, lsum (making x) new + mk (vars s !! x) = lsum (making x) old + mk (vars s' !! x)) → Inv s'.
  Proof.
    intros HI Hst He Hk Hs Ht Hold Hc Ha Hnew Hv.
    assert (Hcnt : ∀ a, cnt s' a = cnt s a).
    { intros a. pose proof (cnt_frame s s' t (new ++ rest) a) as Hf. specialize (Hc a). unfold hsum in Hf. rewrite He in Hf.
      specialize (Hf eq_refl Hs). rewrite Hst, !lsum_app in Hf. lia. }
    assert (Hok' : ∀ i, iok s i → iok s' i).
    { intros i. destruct i; simpl; unfold fits, built; rewrite ?He, ?Hcnt; done. }
    assert (Hin : ∀ t' i, i ∈ stack s' t' → i ∈ stack s t' ∨ (t' = t ∧ i ∈ new)).
    { intros t' i. rewrite (stack_frame s s' t _ t' Hs). case_decide as Et; [subst|by left]. rewrite Hst, !elem_of_app. tauto. }
    split; rewrite ?He, ?Hk; try by apply HI.
    - intros a n Hn. rewrite Hcnt. by apply HI.
    - intros a Hn. rewrite Hcnt. by apply HI.
    - intros a t'. rewrite (stack_frame s s' t _ t' Hs). case_decide as Et; [subst|apply HI].
      rewrite <- (i_acc _ HI), Hst, !lsum_app, Ha. done.
    - intros t' i [Hi|[-> Hi]]%Hin; apply Hok'; [by eapply (i_ok _ HI)|by apply Hnew].
    - intros x. by eapply vars_frame.
    - intros t' i [Hi|[-> Hi]]%Hin; [by apply HI|by apply Hnew].
    - pose proof (i_todo _ HI) as Htd. rewrite Ht. destruct (todo s) eqn:Etd; [by rewrite ?He|].
      rewrite (stack_frame s s' t _ gc_tid Hs). case_decide as Et; [subst t|done]. rewrite Hst in Htd.
      apply app_eq_nil in Htd as [Ho _]. by destruct (Hold Ho).
  Qed.

  (** one entry changes *)
  Lemma inv_upd s s' t old new rest h n n' : Inv s → stack s t = old ++ rest → ents s !! h = Some n →
    ents s' = <[h:=n']> (ents s) → clock s' = clock s → stacks s' = <[t:=new ++ rest]> (stacks s) →
    match todo s' with
    | None => todo s = None ∧ (old = [] → t ≠ gc_tid)
    | Some X => ∃ X0, todo s = Some X0 ∧ X ⊆ X0 ∧ (n_own n' = Some gc_tid → n_own n = Some gc_tid ∨ h ∉ X)
    end →
    (n_rep n' = n_rep n ∨ eqv (p_key P (n_rep n')) (p_key P (n_rep n)) = true ∧ good (n_rep n') ∧
       is_Some (p_val P (n_rep n')) ∧ ∀ b, occ b (p_kids P (n_rep n')) = occ b (p_kids P (n_rep n))) →
    (n_own n' = n_own n ∨ ((n_own n = None ∨ n_own n = Some t) ∧ (n_own n' = None ∨ n_own n' = Some t))) →
    (∀ a, (Z.of_nat (vsum a s' + lsum (own a) new) - Z.of_nat (vsum a s + lsum (own a) old) =
           if decide (a = h) then n_cnt n' - n_cnt n else 0)%Z) →
    (n_cnt n' = n_cnt n ∨ 0 < cnt s h ∨ n_own n = Some t ∧ t ≠ gc_tid ∧ is_Some (p_val P (n_rep n'))) →
    (∀ a, lsum (acc a) new + (if decide (a = h) then has (n_own n) t else 0) =
          lsum (acc a) old + (if decide (a = h) then has (n_own n') t else 0)) →
    (∀ i, i ∈ new → iok s' i ∧ gc_fine t i) →
    (∀ x, lsum (making x) new + mk (vars s !! x) = lsum (making x) old + mk (vars s' !! x)) → Inv s'.
  Proof.
    intros HI Hst Hn He Hk Hs Ht Hrep Hown Hc Hz Ha Hnw Hv.
    assert (Hr : eqv (p_key P (n_rep n')) (p_key P (n_rep n)) = true ∧ good (n_rep n') ∧
       (p_val P (n_rep n') = None → n_rep n' = n_rep n) ∧ ∀ b, occ b (p_kids P (n_rep n')) = occ b (p_kids P (n_rep n))).
    { destruct Hrep as [->|(?&?&[v Hv']&?)].
      - split_and!; [apply Heq|by eapply (i_good _ HI)|done|done].
      - split_and!; try done. by rewrite Hv'. }
    destruct Hr as (Hkey&Hgood&Hval&Hkids). clear Hrep.
    assert (Hh : ∀ a, hsum a s' = hsum a s) by (intros a; by eapply hsum_put).
    assert (Hd : ∀ a, (Z.of_nat (cnt s' a) - Z.of_nat (cnt s a) = if decide (a = h) then n_cnt n' - n_cnt n else 0)%Z).
    { intros a. pose proof (cnt_frame s s' t (new ++ rest) a (Hh a) Hs) as Hf. rewrite Hst, !lsum_app in Hf.
      specialize (Hc a). case_decide; lia. }
    assert (Hcnt : ∀ a, a ≠ h → cnt s' a = cnt s a).
    { intros a Hne. specialize (Hd a). rewrite decide_False in Hd by done. lia. }
    destruct (i_cnt _ HI h n Hn) as [Hc1 Hc2].
    pose proof (Hd h) as Hdh. rewrite decide_True in Hdh by done.
    assert (Hl : ∀ a m, ents s' !! a = Some m → (a = h ∧ m = n') ∨ (a ≠ h ∧ ents s !! a = Some m)).
    { intros a m. rewrite He. destruct (decide (a = h)) as [->|Hne]; [rewrite lookup_insert|rewrite lookup_insert_ne by done]; naive_solver. }
    assert (Hold : ∀ a m, ents s' !! a = Some m → ∃ m0, ents s !! a = Some m0 ∧ eqv (p_key P (n_rep m)) (p_key P (n_rep m0)) = true).
    { intros a m [[-> ->]|[_ Hm]]%Hl; [eauto|]. exists m. split; [done|]. apply Heq. }
    assert (Hnew : ∀ a m0, ents s !! a = Some m0 → ∃ m, ents s' !! a = Some m ∧ eqv (p_key P (n_rep m)) (p_key P (n_rep m0)) = true ∧
        (is_Some (p_val P (n_rep m0)) → is_Some (p_val P (n_rep m)))).
    { intros a m0 Hm0. destruct (decide (a = h)) as [->|Hne].
      - simplify_eq. exists n'. rewrite He, lookup_insert. split_and!; [done|done|]. intros Hs0.
        destruct (p_val P (n_rep n')) eqn:E; [eauto|]. rewrite <- (Hval eq_refl) in Hs0. rewrite E in Hs0. by destruct Hs0.
      - exists m0. rewrite He, lookup_insert_ne by done. split_and!; [done|apply Heq|done]. }
    assert (Hok' : ∀ t' i, i ∈ stack s t' → iok s' i).
    { intros t' i Hi. pose proof (i_ok _ HI t' i Hi) as Hi0.
      assert (Hfit : ∀ h0 k, fits s h0 k → fits s' h0 k).
      { intros h0 k (m0&Hm0&E). destruct (Hnew h0 m0 Hm0) as (m&Hm&E'&_). exists m. split; [done|]. by eapply (eqv_trans _ Heq). }
      assert (Hblt : ∀ h0, built s h0 → built s' h0).
      { intros h0 (m0&Hm0&E). destruct (Hnew h0 m0 Hm0) as (m&Hm&_&E'). exists m. split; [done|]. by apply E'. }
      destruct i; simpl in *; try exact I; try exact Hi0; try exact (Hfit _ _ Hi0);
        try (destruct Hi0 as [Hi1 Hi2]; split; [exact Hi1 || exact (Hfit _ _ Hi1)|exact (Hfit _ _ Hi2) || exact (Hblt _ Hi2)]).
      destruct (decide (h0 = h)) as [->|Hh0]; [|by rewrite Hcnt]. destruct Hz as [Hz|[Hz|(Hno&Hgc&_)]]; [lia|lia|].
      destruct (i_gc _ HI t' _ Hi) as [Hg _]. simpl in Hg. specialize (Hg I). subst t'.
      pose proof (i_acc _ HI h gc_tid) as Hac. rewrite Hn, Hno in Hac. apply (lsum_elem (acc h)) in Hi. simpl in Hi. rewrite at_eq in Hi.
      unfold has in Hac. rewrite decide_False in Hac by (intros [=]; done). lia. }
    assert (Hin : ∀ t' i, i ∈ stack s' t' → i ∈ stack s t' ∨ (t' = t ∧ i ∈ new)).
    { intros t' i. rewrite (stack_frame s s' t _ t' Hs). case_decide as Et; [subst|by left]. rewrite Hst, !elem_of_app. tauto. }
    split.
    - intros a m [[-> ->]|[Hne Hm]]%Hl; [|rewrite Hcnt by done; by apply HI]. split; [lia|]. intros Hnone.
      pose proof (Hval Hnone) as Er. rewrite Er in Hnone. specialize (Hc2 Hnone).
      destruct Hz as [Hz|[Hz|(_&_&[v Hv'])]]; [lia|lia|]. rewrite Er in Hv'. congruence.
    - intros a Hm. destruct (decide (a = h)) as [->|Hne]; [rewrite He, lookup_insert in Hm; done|].
      rewrite He, lookup_insert_ne in Hm by done. rewrite Hcnt by done. by apply HI.
    - intros a t'. rewrite (stack_frame s s' t _ t' Hs), He. case_decide as Et.
      + subst t'. pose proof (i_acc _ HI a t) as Hac. specialize (Ha a). rewrite Hst, lsum_app in Hac. rewrite lsum_app.
        case_decide as Eh; [subst a; rewrite lookup_insert; rewrite Hn in Hac; lia|].
        rewrite lookup_insert_ne by done. lia.
      + rewrite (i_acc _ HI a t'). destruct (decide (a = h)) as [->|Eh]; [|by rewrite lookup_insert_ne].
        rewrite lookup_insert, Hn. unfold has. destruct Hown as [->|[[->| ->] [->| ->]]]; try done;
          repeat case_decide; congruence.
    - intros a b m1 m2 H1 H2 E. destruct (Hold a m1 H1) as (m3&H3&E3). destruct (Hold b m2 H2) as (m4&H4&E4).
      eapply (i_uniq _ HI); [exact H3|exact H4|]. exact (eqv_trans _ Heq _ _ _ (eqv_sym _ Heq _ _ E3) (eqv_trans _ Heq _ _ _ E E4)).
    - intros a m [[-> ->]|[Hne Hm]]%Hl; [done|]. by eapply (i_good _ HI).
    - intros a m [[-> ->]|[Hne Hm]]%Hl; rewrite Hk; by eapply (i_low _ HI).
    - intros a m b [[-> ->]|[Hne Hm]]%Hl Hb; [|by eapply (i_kids _ HI)]. eapply (i_kids _ HI); [exact Hn|].
      apply occ_pos. rewrite <- Hkids. by apply occ_pos.
    - intros a m [[-> ->]|[Hne Hm]]%Hl Hnone; [|by eapply (i_made _ HI)]. rewrite Hval in * by done. by eapply (i_made _ HI).
    - intros t' i [Hi|[-> Hi]]%Hin; [by eapply Hok'|by apply Hnw].
    - intros x. by eapply vars_frame.
    - intros t' i [Hi|[-> Hi]]%Hin; [by apply HI|by apply Hnw].
    - pose proof (i_todo _ HI) as Htd. destruct (todo s') as [X|].
      + destruct Ht as (X0&Ht&Hsub&Hx). rewrite Ht in Htd. destruct Htd as [Htd1 Htd2]. split.
        * rewrite He, dom_insert. intros b Hb. apply elem_of_union_r, Htd1, Hsub, Hb.
        * intros a m [[-> ->]|[Hne Hm]]%Hl Ho.
          -- destruct (Hx Ho) as [Ho'|]; [|done]. intros Hi. by apply (Htd2 _ _ Hn Ho'), Hsub.
          -- intros Hi. by apply (Htd2 _ _ Hm Ho), Hsub.
      + destruct Ht as [Ht Hgc]. rewrite Ht in Htd. rewrite (stack_frame s s' t _ gc_tid Hs). case_decide as Et; [subst t|done].
        rewrite Hst in Htd. apply app_eq_nil in Htd as [Ho _]. by destruct (Hgc Ho).
  Qed.

  (** ** lookup *)
  Lemma find_some s k h : find P eqv s k = Some h → ∃ n, ents s !! h = Some n ∧ eqv (p_key P (n_rep n)) k = true.
  Proof.
    unfold find. destruct (filter _ _) as [|[a n] l] eqn:E; [done|]. intros [= <-].
    assert (Hin : (a, n) ∈ filter (λ p : addr * node, eqv (p_key P (n_rep p.2)) k = true) (map_to_list (ents s))) by (rewrite E; left).
    apply elem_of_list_filter in Hin as [Hk Hin]. apply elem_of_map_to_list in Hin. exists n. done.
  Qed.
  Lemma find_none s k h n : find P eqv s k = None → ents s !! h = Some n → eqv (p_key P (n_rep n)) k = true → False.
  Proof.
    unfold find. destruct (filter _ _) as [|[a m] l] eqn:E; [|done]. intros _ Hn Hk.
    assert (Hin : (h, n) ∈ filter (λ p : addr * node, eqv (p_key P (n_rep p.2)) k = true) (map_to_list (ents s))).
    { apply elem_of_list_filter. split; [done|]. by apply elem_of_map_to_list. }
    rewrite E in Hin. by apply elem_of_nil in Hin.
  Qed.
  Lemma present s a : Inv s → 0 < cnt s a → ∃ n, ents s !! a = Some n ∧ is_Some (p_val P (n_rep n)).
  Proof.
    intros HI Hp. destruct (ents s !! a) as [n|] eqn:E; [|pose proof (i_gone _ HI a E); lia].
    exists n. split; [done|]. destruct (i_cnt _ HI a n E) as [_ H]. destruct (p_val P (n_rep n)); [eauto|]. specialize (H eq_refl). lia.
  Qed.
  Lemma cnt_own s t i a : i ∈ stack s t → 0 < own a i → 0 < cnt s a.
  Proof. intros Hi Hp. apply (tsum_elem (own a)) in Hi. unfold cnt. lia. Qed.
  Lemma cnt_var s x a : vars s !! x = Some (Some a) → 0 < cnt s a.
  Proof. intros Hx. pose proof (msum_ge (vcount a) (vars s) x _ Hx) as H. simpl in H. rewrite at_eq in H. unfold cnt, vsum. lia. Qed.
  Lemma cnt_kid s b n a : ents s !! b = Some n → a ∈ p_kids P (n_rep n) → 0 < cnt s a.
  Proof.
    intros Hb Ha. pose proof (msum_ge (λ n, occ a (p_kids P (n_rep n))) (ents s) b _ Hb) as H. simpl in H.
    apply occ_pos in Ha. unfold cnt, hsum. lia.
  Qed.
  Lemma accessed s t i a : Inv s → i ∈ stack s t → 0 < acc a i → ∃ n, ents s !! a = Some n ∧ n_own n = Some t.
  Proof.
    intros HI Hi Hp. apply (lsum_elem (acc a)) in Hi. rewrite (i_acc _ HI a t) in Hi. destruct (ents s !! a) as [n|]; [|lia].
    exists n. split; [done|]. unfold has in Hi. case_decide; [done|lia].
  Qed.

  (** a new entry appears *)
  Lemma inv_new s s' t rest x p r : Inv s → stack s t = IEnter x p r :: rest → find P eqv s (p_key P r) = None →
    ents s' = <[clock s:=Node r 0 (Some t)]> (ents s) → clock s' = S (clock s) →
    stacks s' = <[t:=IVisit x (clock s) p [] (p_key P r) :: rest]> (stacks s) → todo s' = todo s → vars s' = vars s → Inv s'.
  Proof.
    intros HI Hst Hf He Hk Hs Ht Hv.
    assert (Htop : IEnter x p r ∈ stack s t) by (rewrite Hst; left).
    pose proof (i_ok _ HI t _ Htop) as [ks Hmk]. destruct (po_make _ _ _ HP p ks r Hmk) as [Hgd Hkids].
    assert (Hfresh : ents s !! clock s = None).
    { destruct (ents s !! clock s) eqn:E; [|done]. apply (i_low _ HI) in E. lia. }
    assert (Hcnt : ∀ a, cnt s' a = cnt s a).
    { intros a. unfold cnt, vsum, hsum. rewrite Hv, He, msum_new by done. simpl.
      pose proof (tsum_set (own a) s t (IVisit x (clock s) p [] (p_key P r) :: rest)) as Hts.
      assert (tsum (own a) s' = tsum (own a) (set_stack t (IVisit x (clock s) p [] (p_key P r) :: rest) s)) as -> by (unfold tsum; by rewrite Hs).
      rewrite Hst, !lsum_cons in Hts. simpl in Hts. rewrite ?occ_nil in Hts. lia. }
    assert (Hl : ∀ a m, ents s' !! a = Some m → (a = clock s ∧ m = Node r 0 (Some t)) ∨ (a ≠ clock s ∧ ents s !! a = Some m)).
    { intros a m. rewrite He. destruct (decide (a = clock s)) as [->|Hne]; [rewrite lookup_insert|rewrite lookup_insert_ne by done]; naive_solver. }
    assert (Hmono : ∀ a m, ents s !! a = Some m → ents s' !! a = Some m).
    { intros a m Hm. rewrite He, lookup_insert_ne; [done|]. intros <-. congruence. }
    assert (Hok' : ∀ i, iok s i → iok s' i).
    { intros i Hi0.
      assert (Hfit : ∀ h0 k, fits s h0 k → fits s' h0 k) by (intros h0 k (m0&Hm0&E); exists m0; auto).
      assert (Hblt : ∀ h0, built s h0 → built s' h0) by (intros h0 (m0&Hm0&E); exists m0; auto).
      destruct i; simpl in *; try exact I; try exact Hi0; try exact (Hfit _ _ Hi0);
        try (destruct Hi0 as [Hi1 Hi2]; split; [exact Hi1 || exact (Hfit _ _ Hi1)|exact (Hfit _ _ Hi2) || exact (Hblt _ Hi2)]).
      by rewrite Hcnt. }
    assert (Hgc : t ≠ gc_tid).
    { intros Hg. destruct (i_gc _ HI t _ Htop) as [_ [[]|[]]]. done. }
    assert (Hin : ∀ t' i, i ∈ stack s' t' → i ∈ stack s t' ∨ (t' = t ∧ i = IVisit x (clock s) p [] (p_key P r))).
    { intros t' i. rewrite (stack_frame s s' t _ t' Hs). case_decide as Et; [subst|by left]. rewrite Hst, !elem_of_cons. tauto. }
    split.
    - intros a m [[-> ->]|[Hne Hm]]%Hl; rewrite Hcnt; [|by apply HI]. by rewrite (i_gone _ HI _ Hfresh).
    - intros a Hm. rewrite Hcnt. apply HI. destruct (ents s !! a) eqn:E; [|done]. rewrite (Hmono _ _ E) in Hm. done.
    - intros a t'. pose proof (i_acc _ HI a t') as Hac. rewrite (stack_frame s s' t _ t' Hs), He. case_decide as Et.
      + subst t'. rewrite Hst, lsum_cons in Hac. rewrite lsum_cons. simpl in *. destruct (decide (a = clock s)) as [->|Hne].
        * rewrite lookup_insert. rewrite Hfresh in Hac. rewrite at_eq. unfold has. simpl. rewrite decide_True by done. lia.
        * rewrite lookup_insert_ne by done. by rewrite at_ne.
      + rewrite Hac. destruct (decide (a = clock s)) as [->|Hne]; [|by rewrite lookup_insert_ne].
        rewrite lookup_insert, Hfresh. unfold has. simpl. rewrite decide_False; [done|]. intros [=]; done.
    - intros a b m1 m2 [[-> ->]|[Ha H1]]%Hl [[-> ->]|[Hb H2]]%Hl E; [done| | |by eapply (i_uniq _ HI)]; exfalso; simpl in *.
      + eapply find_none; [exact Hf|exact H2|by apply (eqv_sym _ Heq)].
      + eapply find_none; [exact Hf|exact H1|done].
    - intros a m [[-> ->]|[Hne Hm]]%Hl; [done|by eapply (i_good _ HI)].
    - intros a m [[-> ->]|[Hne Hm]]%Hl; rewrite Hk; [lia|]. apply (i_low _ HI) in Hm. lia.
    - intros a m b [[-> ->]|[Hne Hm]]%Hl Hb; [|by eapply (i_kids _ HI)]. simpl in Hb.
      destruct (present s b HI) as (n&Hn&_); [|by eapply (i_low _ HI)]. eapply cnt_own; [exact Htop|]. by apply occ_pos.
    - intros a m [[-> ->]|[Hne Hm]]%Hl Hnone; [by exists p, ks|by eapply (i_made _ HI)].
    - intros t' i [Hi|[-> ->]]%Hin; [by eapply Hok', (i_ok _ HI)|]. simpl. split; [by exists ks, r|].
      exists (Node r 0 (Some t)). rewrite He, lookup_insert. split; [done|]. apply Heq.
    - intros x'. eapply (vars_frame s s' t [IEnter x p r] [IVisit x (clock s) p [] (p_key P r)] rest); [done|by rewrite Hst|by rewrite Hs|].
      by rewrite Hv.
    - intros t' i [Hi|[-> ->]]%Hin; [by apply HI|done].
    - pose proof (i_todo _ HI) as Htd. rewrite Ht. destruct (todo s) as [X|].
      + destruct Htd as [H1 H2]. split.
        * rewrite He, dom_insert. intros b Hb. apply elem_of_union_r, H1, Hb.
        * intros a m [[-> ->]|[Hne Hm]]%Hl Ho; [|by eapply H2]. simpl in Ho. congruence.
      + rewrite (stack_frame s s' t _ gc_tid Hs). case_decide; [congruence|done].
  Qed.

  (** the garbage collector erases an entry *)
  Lemma inv_erase s s' t rest h n : Inv s → stack s t = IErase h :: rest → ents s !! h = Some n →
    ents s' = delete h (ents s) → clock s' = clock s →
    stacks s' = <[t:=map IRelease (p_kids P (n_rep n)) ++ rest]> (stacks s) → todo s' = todo s → vars s' = vars s → Inv s'.
  Proof.
    intros HI Hst Hn He Hk Hs Ht Hv.
    assert (Htop : IErase h ∈ stack s t) by (rewrite Hst; left).
    pose proof (i_ok _ HI t _ Htop) as Hz. simpl in Hz.
    destruct (i_gc _ HI t _ Htop) as [Hg _]. simpl in Hg. specialize (Hg I). subst t.
    destruct (accessed s gc_tid _ h HI Htop) as (n0&Hn0&Hown); [simpl; rewrite at_eq; lia|]. simplify_eq.
    assert (Hcnt : ∀ a, cnt s' a = cnt s a).
    { intros a. unfold cnt, vsum, hsum. rewrite Hv, He.
      pose proof (msum_delete (λ n, occ a (p_kids P (n_rep n))) (ents s) h n Hn) as Hd. simpl in Hd.
      pose proof (tsum_set (own a) s gc_tid (map IRelease (p_kids P (n_rep n)) ++ rest)) as Hts.
      assert (tsum (own a) s' = tsum (own a) (set_stack gc_tid (map IRelease (p_kids P (n_rep n)) ++ rest) s)) as -> by (unfold tsum; by rewrite Hs).
      rewrite Hst, lsum_app, lsum_cons, lsum_own_release in Hts. simpl in Hts. lia. }
    assert (Hl : ∀ a m, ents s' !! a = Some m → a ≠ h ∧ ents s !! a = Some m).
    { intros a m. rewrite He. intros [? ?]%lookup_delete_Some. done. }
    assert (Hin : ∀ t' i, i ∈ stack s' t' → i ∈ stack s t' ∨ (t' = gc_tid ∧ ∃ b, i = IRelease b)).
    { intros t' i. rewrite (stack_frame s s' gc_tid _ t' Hs). case_decide as Et; [subst|by left]. rewrite Hst, elem_of_app, elem_of_cons.
      intros [(b&->&_)%elem_of_list_fmap|]; eauto. }
    assert (Hok' : ∀ t' i, i ∈ stack s t' → iok s' i ∨ i = IErase h).
    { intros t' i Hi. pose proof (i_ok _ HI t' i Hi) as Hi0.
      assert (Hfit : ∀ h0 k, h0 ≠ h → fits s h0 k → fits s' h0 k).
      { intros h0 k Hne (m0&Hm0&E). exists m0. by rewrite He, lookup_delete_ne. }
      assert (Hblt : ∀ h0, h0 ≠ h → built s h0 → built s' h0).
      { intros h0 Hne (m0&Hm0&E). exists m0. by rewrite He, lookup_delete_ne. }
      assert (Ho : 0 < own h i → False) by (intros Hp; pose proof (cnt_own s t' i h Hi Hp); lia).
      assert (Hac : 0 < acc h i → t' = gc_tid).
      { intros Hp. destruct (accessed s t' i h HI Hi Hp) as (m&Hm&Ho'). congruence. }
      pose proof (i_gc _ HI t' i Hi) as [_ Hg].
      destruct i; simpl in *; try (left; first [exact I|exact Hi0]).
      - destruct (decide (h0 = h)) as [->|Hne]; [|left; split; [apply Hi0|apply Hfit; [done|apply Hi0]]].
        rewrite at_eq in Hac. destruct (Hg (Hac ltac:(lia))) as [[]|[]].
      - destruct (decide (h0 = h)) as [->|Hne]; [|left; split; [apply Hfit; [done|apply Hi0]|apply Hblt; [done|apply Hi0]]].
        rewrite at_eq in Hac. destruct (Hg (Hac ltac:(lia))) as [[]|[]].
      - destruct (decide (h0 = h)) as [->|Hne]; [|left; by apply Hfit]. rewrite at_eq in Ho. destruct Ho. lia.
      - destruct (decide (h0 = h)) as [->|Hne]; [|left; by apply Hfit]. rewrite at_eq in Ho. destruct Ho. lia.
      - left. by rewrite Hcnt. }
    split.
    - intros a m [Hne Hm]%Hl. rewrite Hcnt. by apply HI.
    - intros a Hm. rewrite Hcnt. destruct (decide (a = h)) as [->|Hne]; [done|]. rewrite He, lookup_delete_ne in Hm by done. by apply HI.
    - intros a t'. pose proof (i_acc _ HI a t') as Hac. rewrite (stack_frame s s' gc_tid _ t' Hs), He. case_decide as Et.
      + subst t'. rewrite Hst, lsum_cons in Hac. rewrite lsum_app, lsum_acc_release. simpl in *. destruct (decide (a = h)) as [->|Hne].
        * rewrite lookup_delete. rewrite Hn, Hown, at_eq in Hac. unfold has in Hac. rewrite decide_True in Hac by done. lia.
        * rewrite lookup_delete_ne by done. rewrite at_ne in Hac by done. lia.
      + rewrite Hac. destruct (decide (a = h)) as [->|Hne]; [|by rewrite lookup_delete_ne].
        rewrite lookup_delete, Hn, Hown. unfold has. rewrite decide_False; [done|]. intros [=]; done.
    - intros a b m1 m2 [_ H1]%Hl [_ H2]%Hl. by eapply (i_uniq _ HI).
    - intros a m [_ Hm]%Hl. by eapply (i_good _ HI).
    - intros a m [_ Hm]%Hl. rewrite Hk. by eapply (i_low _ HI).
    - intros a m b [_ Hm]%Hl. by eapply (i_kids _ HI).
    - intros a m [_ Hm]%Hl. by eapply (i_made _ HI).
    - intros t' i [Hi|[-> [b ->]]]%Hin; [|done]. destruct (Hok' t' i Hi) as [|Hi']; [done|]. subst i. simpl. by rewrite Hcnt.
    - intros x'. eapply (vars_frame s s' gc_tid [IErase h] (map IRelease (p_kids P (n_rep n))) rest); [done|by rewrite Hst|by rewrite Hs|].
      rewrite Hv, lsum_making_release. done.
    - intros t' i [Hi|[-> [b ->]]]%Hin; [by apply HI|]. split; [done|]. intros _. by right.
    - pose proof (i_todo _ HI) as Htd. rewrite Ht. destruct (todo s) as [X|]; [|by rewrite Hst in Htd].
      destruct Htd as [H1 H2]. split.
      + rewrite He, dom_delete. intros b Hb. apply elem_of_difference. split; [by apply H1|].
        intros ->%elem_of_singleton. by apply (H2 _ _ Hn Hown).
      + intros a m [_ Hm]%Hl. by apply H2.
  Qed.

  (** ** steps *)
  Lemma not_gc s t i : Inv s → i ∈ stack s t → ¬ gc_only i → ¬ is_release i → t ≠ gc_tid.
  Proof. intros HI Hi H1 H2 ->. destruct (i_gc _ HI _ _ Hi) as [_ H]. destruct (H eq_refl); done. Qed.
  Lemma gc_fine_no t i : t ≠ gc_tid → ¬ gc_only i → gc_fine t i.
  Proof. intros H1 H2. split; intros; done. Qed.
  Lemma gc_fine_release t h : gc_fine t (IRelease h).
  Proof. split; [done|]. intros _. by right. Qed.
  Lemma live_vars s x h : live s x = Some h → vars s !! x = Some (Some h).
  Proof. unfold live. destruct (vars s !! x) as [[|]|]; by intros [=->]. Qed.
  Lemma todo_same s t (old : list instr) n n' h : (n_own n' = Some gc_tid → n_own n = Some gc_tid) → (old = [] → t ≠ gc_tid) →
    match todo s with
    | None => todo s = None ∧ (old = [] → t ≠ gc_tid)
    | Some X => ∃ X0, todo s = Some X0 ∧ X ⊆ X0 ∧ (n_own n' = Some gc_tid → n_own n = Some gc_tid ∨ h ∉ X)
    end.
  Proof. intros Ho Hg. destruct (todo s) as [X|]; [|done]. exists X. split_and!; [done|done|]. intros; left; auto. Qed.

  (** a reference is added through one that exists, or under access *)
  Lemma inv_add s s' t old new rest h n : Inv s → stack s t = old ++ rest → ents s !! h = Some n →
    s' = set_stack t (new ++ rest) (put h (with_cnt n (n_cnt n + 1)) s) ∨
    (∃ v e, s' = add_log e (set_stack t (new ++ rest) (set_vars v (put h (with_cnt n (n_cnt n + 1)) s)))) ∨
    (∃ v, s' = set_stack t (new ++ rest) (set_vars v (put h (with_cnt n (n_cnt n + 1)) s))) →
    (old = [] → t ≠ gc_tid) →
    (0 < cnt s h ∨ n_own n = Some t ∧ t ≠ gc_tid ∧ is_Some (p_val P (n_rep n))) →
    (∀ a, vsum a s' + lsum (own a) new = vsum a s + lsum (own a) old + at_ a h) →
    (∀ a, lsum (acc a) new = lsum (acc a) old) →
    (∀ i, i ∈ new → iok s' i ∧ gc_fine t i) →
    (∀ x, lsum (making x) new + mk (vars s !! x) = lsum (making x) old + mk (vars s' !! x)) → Inv s'.
  Proof.
    intros HI Hst Hn Hs' Hg Hc Ho Ha Hok Hmk.
    eapply (inv_upd s s' t old new rest h n (with_cnt n (n_cnt n + 1))); try done; try by destruct Hs' as [->|[(?&?&->)|(?&->)]].
    - assert (todo s' = todo s) as -> by (by destruct Hs' as [->|[(?&?&->)|(?&->)]]). by apply (todo_same s).
    - by left.
    - by left.
    - intros a. specialize (Ho a). unfold at_ in Ho. simpl. case_decide; lia.
    - by right.
    - intros a. specialize (Ha a). simpl. case_decide; lia.
  Qed.
  Lemma inv_sub s s' t old new rest h n : Inv s → stack s t = old ++ rest → old ≠ [] → ents s !! h = Some n →
    s' = set_stack t (new ++ rest) (put h (with_cnt n (n_cnt n - 1)) s) →
    0 < cnt s h →
    (∀ a, lsum (own a) new + at_ a h = lsum (own a) old) →
    (∀ a, lsum (acc a) new = lsum (acc a) old) →
    (∀ i, i ∈ new → iok s' i ∧ gc_fine t i) →
    (∀ x, lsum (making x) new = lsum (making x) old) → Inv s'.
  Proof.
    intros HI Hst Hold Hn -> Hc Ho Ha Hok Hmk.
    eapply (inv_upd s _ t old new rest h n (with_cnt n (n_cnt n - 1))); try done.
    - by apply (todo_same s).
    - by left.
    - by left.
    - intros a. specialize (Ho a). unfold at_ in Ho. unfold vsum. simpl. case_decide; lia.
    - by right; left.
    - intros a. specialize (Ha a). simpl. case_decide; lia.
    - intros x. specialize (Hmk x). simpl. lia.
  Qed.
  (** access is given up *)
  Lemma inv_leave s s' t i new rest h n : Inv s → stack s t = i :: rest → ents s !! h = Some n → n_own n = Some t →
    s' = set_stack t (new ++ rest) (put h (with_own n None) s) →
    (∀ a, lsum (own a) new = own a i) → (∀ a, lsum (acc a) new = 0) → (∀ a, acc a i = at_ a h) →
    (∀ j, j ∈ new → iok s' j ∧ gc_fine t j) →
    (∀ x, lsum (making x) new = making x i) → Inv s'.
  Proof.
    intros HI Hst Hn Hown -> Ho Ha Hai Hok Hmk.
    eapply (inv_upd s _ t [i] new rest h n (with_own n None)); try done.
    - by apply (todo_same s).
    - by left.
    - right. split; [by right|by left].
    - intros a. rewrite lsum_cons, lsum_nil, Ho. unfold vsum. simpl. case_decide; lia.
    - by left.
    - intros a. rewrite lsum_cons, lsum_nil, Ha, Hai. simpl. rewrite Hown. unfold at_, has. repeat case_decide; try done; lia.
    - intros x. rewrite lsum_cons, lsum_nil, Hmk. simpl. lia.
  Qed.

  Lemma fits_put s h n n' v e t l k : ents s !! h = Some n → n_rep n' = n_rep n → eqv (p_key P (n_rep n)) k = true →
    fits (add_log e (set_stack t l (set_vars v (put h n' s)))) h k.
  Proof. intros Hn Hr Hk. exists n'. simpl. rewrite lookup_insert, Hr. done. Qed.
End Inv.

Ltac sums := intros; rewrite ?lsum_app, ?lsum_cons, ?lsum_nil, ?lsum_own_release, ?lsum_acc_release, ?lsum_making_release; simpl; rewrite ?occ_app, ?occ_cons, ?occ_nil; try lia.
