(** The invariant of [CoreHbInv.v] is kept by every step. *)
From Verif Require Export CoreHbInv.

Lemma knows_set_ob m c u : knows (set_ob m c) u = knows c u.
Proof. done. Qed.
Lemma new_acc t ls c a : a ∈ map (λ l : mloc * kind, Acc (nxt c) t l.1 l.2) ls →
  ∃ l, l ∈ ls ∧ a_ev a = nxt c ∧ a_loc a = l.1 ∧ a_kind a = l.2.
Proof. intros (l&->&Hl)%elem_of_list_fmap. by exists l. Qed.

Lemma knows_rmw acq rls t h c u : knows (rmw acq rls t h c) u =
  if decide (u = t) then knows c t ∪ {[nxt c]} ∪ (if acq then cset c h else ∅) else knows c u.
Proof.
  unfold rmw. cbv zeta. set (c1 := emit t _ c). assert (Hcs : cset c1 h = cset c h) by done.
  assert (H : ∀ d : hb, knows (if rls then rel h (knows d t) d else d) u = knows d u).
  { intros d. destruct rls; [|done]. unfold rel. by destruct (nd d !! h) as [[??]|]. }
  etrans; [apply H|]. destruct acq; [rewrite knows_learn, Hcs|]; unfold c1; rewrite !knows_emit; repeat case_decide; try done; set_solver.
Qed.
Lemma nd_rmw acq rls t h c j E : nd c !! h = Some (j, E) →
  nd (rmw acq rls t h c) = if rls then <[h:=(j, E ∪ (knows c t ∪ {[nxt c]} ∪ (if acq then E else ∅)))]> (nd c) else nd c.
Proof.
  intros Hj. assert (Hcs : cset (emit t [(MRef (idn c h), Atomic)] c) h = E) by (unfold cset; simpl; by rewrite Hj).
  unfold rmw. destruct acq, rls; cbv zeta; try done; unfold rel; simpl; rewrite Hj; simpl; do 3 f_equal.
  - by rewrite knows_learn, decide_True, Hcs, knows_emit, decide_True by done.
  - rewrite knows_emit, decide_True by done. by rewrite (right_id_L ∅ (∪)).
Qed.
Lemma rmw_rest acq rls t h c : let c' := rmw acq rls t h c in
  mset c' = mset c ∧ ob c' = ob c ∧ past c' = <[nxt c:=knows c t]> (past c) ∧ nxt c' = S (nxt c) ∧
  tr c' = Acc (nxt c) t (MRef (idn c h)) Atomic :: tr c.
Proof. unfold rmw, rel. destruct acq, rls; simpl; try done; by destruct (nd c !! h) as [[??]|]. Qed.
Lemma rmw_wf acq rls t h c : hwf c → knowsW c (knows c t) h → is_Some (nd c !! h) → hwf (rmw acq rls t h c).
Proof.
  intros W HW [[j E] Hj]. assert (Hid : idn c h = j) by (unfold idn; by rewrite Hj).
  assert (W1 : hwf (emit t [(MRef (idn c h), Atomic)] c)).
  { apply emit_wf; [done|]. intros a l Ha ->%elem_of_list_singleton (Hl&_&Hr). eapply HW; [done|done|]. right. split; [by rewrite Hl, Hid|].
    intros ?. by apply Hr. }
  unfold rmw. cbv zeta. set (c1 := emit t _ c) in *. assert (W2 : hwf (if acq then learn t (cset c1 h) c1 else c1)).
  { destruct acq; [|done]. apply learn_wf; [done|]. unfold cset. destruct (nd c1 !! h) as [[??]|] eqn:?; [by eapply w_nd|apply closed_empty]. }
  destruct rls; [|done]. apply rel_wf; [done|]. apply (w_kn _ W2).
Qed.

Section Step.
  Context {K A R V : Type}.
  Context (P : policy K A R V) (FS : factory K) (cfg : config).
  Context (eqv : K → K → bool) (good : R → Prop).
  Context (Heq : equivalence eqv) (HP : policy_ok eqv good P) (HF : factory_spec eqv FS).
  Context (t0 : tid).

  Notation state := (state (R:=R) (K:=K) (A:=A) FS).
  Notation instr := (instr (K:=K) (A:=A) (R:=R)).
  Notation node := (node (R:=R)).
  Notation Inv := (Inv P FS cfg eqv good HF t0).
  Notation allowed := (allowed cfg t0).
  Notation own := (own P).
  Notation cnt := (cnt P FS).
  Notation kids n := (p_kids P (n_rep n)).
  Notation public := (public FS cfg t0).
  Notation cov := (cov P FS cfg t0).
  Notation J := (J P FS cfg t0).
  Implicit Types (s : state) (c : hb) (n : node) (h b : addr) (i : instr).

  Lemma public_mono s c c' : (∀ u, knows c u ⊆ knows c' u) → mset c ⊆ mset c' → public s c ⊆ public s c'.
  Proof. intros Hk Hm. unfold CoreHbInv.public. destruct (lck cfg); [|apply Hk]. destruct (lock s) as [[u d]|]; [apply Hk|done]. Qed.

  (** ** Knowledge grows, the machine of [Core.v] stands still *)
  Lemma J_hb s c c' t N : Inv s → J s c → hwf c' →
    (∀ u, u ≠ t → knows c' u = knows c u) → knows c t ⊆ knows c' t → mset c' = mset c →
    (∀ e D, past c !! e = Some D → past c' !! e = Some D) → nxt c ≤ nxt c' → tr c' = N ++ tr c →
    (∀ h, match nd c !! h, nd c' !! h with
          | Some (j, E), Some (j', E') => j' = j ∧ E ⊆ E' ∧ (E' = E ∨ 0 < cnt s h) | None, None => True | _, _ => False end) →
    (∀ x, match ob c !! x, ob c' !! x with
          | Some (w, r), Some (w', r') => w' = w ∧ r ⊆ r' | None, None => True | _, _ => False end) →
    (∀ a, a ∈ N → a_loc a = MFac → a_ev a ∈ public s c') →
    (∀ a j, a ∈ N → on j a → ∃ h E, nd c !! h = Some (j, E)) →
    (∀ a h j E, a ∈ N → nd c !! h = Some (j, E) → on j a →
       (a_loc a = MDel j → a_ev a ∈ public s c') ∧ (wr j a → a_ev a ∈ public s c' ∧ cnt s h = 0) ∧
       (∀ n, entry s h = Some n → p_val P (n_rep n) = None → a_ev a ∈ public s c') ∧ (trk cfg = true → cov s c' h (a_ev a))) →
    J s c'.
  Proof.
    intros HI HJ W Hoth Hkt Hms Hpast Hnxt Htr Hnd Hob Nfac Nid Nacc.
    assert (Hk : ∀ u, knows c u ⊆ knows c' u) by (intros u; destruct (decide (u = t)) as [->|Hu]; [done|by rewrite Hoth]).
    assert (Hpub : public s c ⊆ public s c') by (apply public_mono; [done|by rewrite Hms]).
    eapply (J_keep P FS cfg t0 s s c c' t N); try done.
    - intros h. specialize (Hnd h). repeat case_match; try done. naive_solver.
    - intros h. by destruct (entry s h).
    - intros x. rewrite <- (j_ob _ _ _ _ _ _ HJ x). specialize (Hob x).
      destruct (ob c !! x) as [[??]|], (ob c' !! x) as [[??]|]; try done; rewrite !is_Some_alt; done.
    - intros El u d Hl. rewrite Hms. etrans; [by eapply (j_mset _ _ _ _ _ _ HJ)|apply Hk].
    - intros x h w r Hx Hw. left. specialize (Hob x). rewrite Hw in Hob. destruct (ob c !! x) as [[w0 r0]|] eqn:E; [|done].
      destruct Hob as [-> _]. eauto.
    - intros u i h Hi Ho. left. eauto.
    - intros _ x h w r e Hx Hw He. specialize (Hob x). rewrite Hw in Hob. destruct (ob c' !! x) as [[w' r']|] eqn:E; [|done].
      destruct Hob as [-> Hr]. eapply cov_o; [done|done|]. set_solver.
    - intros _ u i h e Hi Ho He. eapply cov_t; [done|done|]. by apply Hk.
    - intros Ht h j E' n Hj Hn H0. pose proof (Hnd h) as Hh. rewrite Hj in Hh. destruct (nd c !! h) as [[j0 E]|] eqn:Ej; [|done].
      destruct Hh as (-> & Hs & [->|Hc]).
      + destruct (j_zero _ _ _ _ _ _ HJ Ht h j0 E n Ej Hn H0) as [?|(u&i&?&?&?)]; [left; by etrans|].
        right. exists u, i. split_and!; [done..|]. etrans; [done|apply Hk].
      + pose proof (i_ref _ _ _ _ _ (i_C _ _ _ _ _ _ _ _ HI) Ht h n Hn). lia.
  Qed.

  Lemma J_learn s c t E : Inv s → J s c → closed c E → J s (learn t E c).
  Proof.
    intros HI HJ HE. eapply (J_hb s c _ t []); try done.
    - apply learn_wf; [apply HJ|done].
    - intros u Hu. by rewrite knows_learn, decide_False.
    - rewrite knows_learn, decide_True by done. set_solver.
    - intros h. simpl. destruct (nd c !! h) as [[??]|]; auto.
    - intros x. simpl. destruct (ob c !! x) as [[??]|]; auto.
    - intros a Ha. by apply elem_of_nil in Ha.
    - intros a j Ha. by apply elem_of_nil in Ha.
    - intros a h j E' Ha. by apply elem_of_nil in Ha.
  Qed.

  (** accesses in a critical section *)
  Definition ok_acc s c (l : mloc * kind) : Prop :=
    match l.1 with
    | MFac => True
    | MDel j => ∃ h E, nd c !! h = Some (j, E)
    | MRep j => ∃ h E, nd c !! h = Some (j, E) ∧ (l.2 = Read ∨ ∃ n, entry s h = Some n ∧ p_val P (n_rep n) = None)
    | MRef j => False
    end.
  Lemma safe_crit s c t l a : J s c → public s c = knows c t → ok_acc s c l → a ∈ tr c → clash a l → a_ev a ∈ knows c t.
  Proof.
    intros HJ Hp Hok Ha (Hl&Hr&_). rewrite <- Hp. destruct l as [[|j|j|j] k]; cbn in *.
    - by apply (j_fac _ _ _ _ _ _ HJ).
    - destruct Hok as (h&E&Hj&[->|(n&Hn&Hv)]).
      + eapply (j_wr _ _ _ _ _ _ HJ h j E); [done|done|]. left. split; [done|]. intros ?. by apply Hr.
      + eapply (j_unb _ _ _ _ _ _ HJ); try done. by left.
    - destruct Hok as (h&E&Hj). by eapply (j_del _ _ _ _ _ _ HJ).
    - done.
  Qed.

  Lemma J_emit s c t ls : Inv s → J s c → public s c = knows c t → (∀ c', public s c' = knows c' t) →
    (∀ l, l ∈ ls → ok_acc s c l) → J s (emit t ls c).
  Proof.
    intros HI HJ Hp Hp' Hok.
    assert (Hnew : nxt c ∈ public s (emit t ls c)) by (rewrite Hp', knows_emit, decide_True by done; set_solver).
    eapply (J_hb s c _ t (map (λ l, Acc (nxt c) t l.1 l.2) ls)); try done.
    - apply emit_wf; [apply HJ|]. intros a l Ha Hl Hcl. eapply safe_crit; eauto.
    - intros u Hu. by rewrite knows_emit, decide_False.
    - rewrite knows_emit, decide_True by done. set_solver.
    - intros e D He. apply past_emit; [apply HJ|done].
    - simpl. lia.
    - intros h. simpl. destruct (nd c !! h) as [[??]|]; auto.
    - intros x. simpl. destruct (ob c !! x) as [[??]|]; auto.
    - intros a Ha _. apply new_acc in Ha as (l&_&->&_). done.
    - intros a j Ha Hon. apply new_acc in Ha as (l&Hl&_&Hloc&_). specialize (Hok l Hl). unfold ok_acc, on in *. rewrite Hloc in Hon.
      destruct l as [[|j'|j'|j'] k]; cbn in *; try naive_solver.
    - intros a h j E Ha Hj Hon. apply new_acc in Ha as (l&Hl&->&Hloc&Hkd). split_and!; try done; [|by intros; apply cov_p].
      intros Hw. split; [done|]. specialize (Hok l Hl). unfold ok_acc, on, wr in *. rewrite Hloc, Hkd in *.
      destruct l as [[|j'|j'|j'] k]; cbn in *; try naive_solver.
      assert (j' = j) as -> by naive_solver. destruct Hok as (h'&E'&Hj'&[->|(n&Hn&Hv)]); [naive_solver|].
      assert (h' = h) as -> by (by eapply (j_inj _ _ _ _ _ _ HJ)).
      by destruct (i_undone _ _ _ _ _ (i_C _ _ _ _ _ _ _ _ HI) h n Hn Hv).
  Qed.

  (** what is known of an entry is known of the entries it holds *)
  Lemma knowsW_kid s c E b n h : J s c → closed c E → is_Some (nd c !! b) → knowsW c E b → entry s b = Some n → h ∈ kids n → knowsW c E h.
  Proof.
    intros HJ HE [[j F] Hj] HW Hb Hk. destruct (j_cre _ _ _ _ _ _ HJ _ _ _ Hj) as (a&Ha&Hev&Hw).
    assert (Hj' : j ∈ E) by (rewrite <- Hev; by eapply HW). destruct (HE _ Hj') as (D&HD&Hs).
    pose proof (j_kid _ _ _ _ _ _ HJ _ _ _ _ _ _ Hb Hk Hj HD) as Hkn. intros j' F' a' H1 H2 H3. apply Hs. by eapply Hkn.
  Qed.

  (** an entry is read through an object *)
  Lemma J_touch s c t x h h' : Inv s → J s c → vars s !! x = Some (Some h) → is_Some (entry s h') →
    (∀ c e, cov s c h e → cov s c h' e) → knowsW c (knows c t) h' → (∃ n', entry s h' = Some n' ∧ p_val P (n_rep n') ≠ None) →
    J s (touch t x h' c).
  Proof.
    intros HI HJ Hx He Hdn HW Hb.
    destruct (proj2 (j_nd _ _ _ _ _ _ HJ h') He) as [[j E] Hj]. destruct (proj2 (j_ob _ _ _ _ _ _ HJ x)) as [[w r] Hw]; [by exists h|].
    pose proof (j_wf _ _ _ _ _ _ HJ) as W.
    assert (Hid : idn c h' = j) by (unfold idn; by rewrite Hj).
    assert (W1 : hwf (emit t [(MRep (idn c h'), Read)] c)).
    { apply emit_wf; [done|]. intros a l Ha ->%elem_of_list_singleton (Hl&Hr&_). eapply HW; [done|done|]. left. split; [by rewrite Hl, Hid|].
      intros ?. by apply Hr. }
    unfold touch, used. simpl. rewrite Hw.
    eapply (J_hb s c _ t [Acc (nxt c) t (MRep j) Read]); try done.
    - apply set_ob_wf; [done|]. intros x' w' r' H. apply lookup_insert_Some in H as [[<- [= <- <-]]|[_ H]].
      + destruct (w_ob _ W1 x w r Hw). split; [done|]. apply closed_union; [done|apply (w_kn _ W1)].
      + apply (w_ob _ W1 x' w' r' H).
    - intros u Hu. by rewrite knows_set_ob, knows_emit, decide_False.
    - rewrite ?knows_set_ob, knows_emit, decide_True by done. set_solver.
    - intros e D HD. by apply (past_emit t [(MRep (idn c h'), Read)] c e D W).
    - simpl. lia.
    - simpl. by rewrite Hid.
    - intros h0. simpl. destruct (nd c !! h0) as [[??]|]; auto.
    - intros x'. simpl. destruct (decide (x' = x)) as [->|Hne].
      + rewrite Hw, lookup_insert. split; [done|set_solver].
      + rewrite lookup_insert_ne by done. destruct (ob c !! x') as [[??]|]; auto.
    - by intros a ->%elem_of_list_singleton.
    - intros a j0 ->%elem_of_list_singleton Hon. unfold on in Hon. simpl in Hon. exists h', E. naive_solver.
    - intros a h0 j0 E0 ->%elem_of_list_singleton Hj0 Hon. assert (j0 = j) as -> by (unfold on in Hon; simpl in Hon; naive_solver).
      assert (h0 = h') as -> by (by eapply (j_inj _ _ _ _ _ _ HJ)). split_and!.
      + done.
      + unfold wr. simpl. naive_solver.
      + intros n Hn Hv. destruct Hb as (n'&Hn'&Hv'). congruence.
      + intros _. simpl. apply Hdn. eapply cov_o; [done|simpl; by rewrite lookup_insert|].
        rewrite !elem_of_union. right. right. rewrite ?knows_set_ob, knows_emit, decide_True by done. set_solver.
  Qed.

  (** an atomic operation on a counter by a thread or through an object *)
  Lemma J_rmw s c t h acq rls (o : option var) : Inv s → J s c → 0 < cnt s h → knowsW c (knows c t) h →
    match o with Some x => ∃ h0, vars s !! x = Some (Some h0) ∧ ∀ c e, cov s c h0 e → cov s c h e | None => ∃ i, i ∈ stack s t ∧ 0 < own h i end →
    J s (match o with Some x => used t x (rmw acq rls t h c) | None => rmw acq rls t h c end).
  Proof.
    intros HI HJ Hc HW Hby. destruct (i_hnd _ _ _ _ _ (i_C _ _ _ _ _ _ _ _ HI) h Hc) as (n&Hn&Hv).
    destruct (proj2 (j_nd _ _ _ _ _ _ HJ h)) as [[j E] Hj]; [eauto|].
    pose proof (rmw_wf acq rls t h c (j_wf _ _ _ _ _ _ HJ) HW ltac:(eauto)) as W.
    pose proof (rmw_rest acq rls t h c) as (Rm&Ro&Rp&Rn&Rt). pose proof (knows_rmw acq rls t h c) as Rk. pose proof (nd_rmw acq rls t h c j E Hj) as Rd.
    set (c1 := rmw acq rls t h c) in *. set (c' := match o with Some x => used t x c1 | None => c1 end).
    assert (Hid : idn c h = j) by (unfold idn; by rewrite Hj). rewrite Hid in Rt.
    assert (F : hwf c' ∧ (∀ u, knows c' u = knows c1 u) ∧ mset c' = mset c1 ∧ past c' = past c1 ∧ nxt c' = nxt c1 ∧ tr c' = tr c1 ∧ nd c' = nd c1).
    { unfold c', used. destruct o as [x|]; [|done]. destruct (ob c1 !! x) as [[w r]|] eqn:Hw; [|done]. split; [|done].
      apply set_ob_wf; [done|]. intros x' w' r' H. apply lookup_insert_Some in H as [[<- [= <- <-]]|[_ H]]; [|apply (w_ob _ W x' w' r' H)].
      destruct (w_ob _ W x w r Hw). split; [done|]. apply closed_union; [done|apply (w_kn _ W)]. }
    destruct F as (W'&Fk&Fm&Fp&Fn&Ft&Fd).
    assert (Hin : nxt c ∈ knows c' t) by (rewrite Fk, Rk, decide_True by done; set_solver).
    eapply (J_hb s c c' t [Acc (nxt c) t (MRef j) Atomic]); try done.
    - intros u Hu. by rewrite Fk, Rk, decide_False.
    - rewrite Fk, Rk, decide_True by done. set_solver.
    - by rewrite Fm.
    - intros e D HD. rewrite Fp, Rp, lookup_insert_ne; [done|]. intros <-. apply (w_dom _ (j_wf _ _ _ _ _ _ HJ)) in HD. lia.
    - lia.
    - by rewrite Ft, Rt.
    - intros h0. rewrite Fd, Rd. destruct rls; [|destruct (nd c !! h0) as [[??]|]; auto]. destruct (decide (h0 = h)) as [->|Hne].
      + rewrite Hj, lookup_insert. split_and!; [done|set_solver|by right].
      + rewrite lookup_insert_ne by done. destruct (nd c !! h0) as [[??]|]; auto.
    - intros x'. unfold c', used. destruct o as [x|]; rewrite ?Ro; [|destruct (ob c !! x') as [[??]|]; auto].
      destruct (ob c !! x) as [[w r]|] eqn:Hw; rewrite ?Ro; [|destruct (ob c !! x') as [[??]|]; auto]. simpl. rewrite ?Ro.
      destruct (decide (x' = x)) as [->|Hne].
      + rewrite Hw, lookup_insert. split; [done|set_solver].
      + rewrite lookup_insert_ne by done. destruct (ob c !! x') as [[??]|]; auto.
    - by intros a ->%elem_of_list_singleton.
    - intros a j0 ->%elem_of_list_singleton Hon. unfold on in Hon. simpl in Hon. exists h, E. naive_solver.
    - intros a h0 j0 E0 ->%elem_of_list_singleton Hj0 Hon. assert (j0 = j) as -> by (unfold on in Hon; simpl in Hon; naive_solver).
      assert (h0 = h) as -> by (by eapply (j_inj _ _ _ _ _ _ HJ)). split_and!.
      + done.
      + unfold wr. simpl. naive_solver.
      + intros n' Hn' Hv'. rewrite Hn in Hn'. injection Hn' as <-. rewrite Hv' in Hv. by destruct Hv.
      + intros _. simpl. destruct o as [x|].
        * destruct Hby as (h0&Hx&Hdn). destruct (proj2 (j_ob _ _ _ _ _ _ HJ x)) as [[w r] Hw]; [by exists h0|].
          apply Hdn. eapply cov_o; [done|unfold c', used; rewrite Ro, Hw; simpl; by rewrite lookup_insert|]. rewrite <- Fk. set_solver.
        * destruct Hby as (i&Hi&Ho). by eapply cov_t.
  Qed.

  (** ** The machine of [Core.v] moves, no access is made *)
  Lemma J_st s s' c c' t : J s c → hwf c' →
    (∀ u, knows c' u = knows c u) → nd c' = nd c → past c' = past c → tr c' = tr c → nxt c' = nxt c →
    public s c ⊆ public s' c' → (∀ u, u ≠ t → stack s' u = stack s u) →
    (∀ h, match entry s h, entry s' h with
          | Some n, Some n' => (∀ a, a ∈ kids n' ↔ a ∈ kids n) ∧ (p_val P (n_rep n') = None → p_val P (n_rep n) = None)
          | None, None => True | _, _ => False end) →
    (∀ x, is_Some (ob c' !! x) ↔ ∃ h, vars s' !! x = Some (Some h)) →
    (lck cfg = true → ∀ u d, lock s' = Some (u, d) → mset c' ⊆ knows c' u) →
    (∀ x h w r, vars s' !! x = Some (Some h) → ob c' !! x = Some (w, r) →
       (∃ w0 r0, vars s !! x = Some (Some h) ∧ ob c !! x = Some (w0, r0) ∧ w0 ⊆ w) ∨ knowsW c w h) →
    (∀ i h, i ∈ stack s' t → 0 < own h i → (∃ i0, i0 ∈ stack s t ∧ 0 < own h i0) ∨ knowsW c (knows c t) h) →
    (trk cfg = true → ∀ x h w r e, vars s !! x = Some (Some h) → ob c !! x = Some (w, r) → e ∈ w ∪ r → cov s' c' h e) →
    (trk cfg = true → ∀ i h e, i ∈ stack s t → 0 < own h i → e ∈ knows c t →
       (∃ i', i' ∈ stack s' t ∧ 0 < own h i') ∨ cov s' c' h e) →
    (trk cfg = true → ∀ h n n', entry s h = Some n → entry s' h = Some n' → n_ref n' = 0%Z →
       (n_ref n = 0%Z ∧ ∀ i, i ∈ stack s t → 0 < pend h i → (∃ i', i' ∈ stack s' t ∧ 0 < pend h i') ∨ knows c t ⊆ public s' c') ∨
       (cset c h ⊆ knows c t ∧ ∃ i', i' ∈ stack s' t ∧ 0 < pend h i')) →
    J s' c'.
  Proof.
    intros HJ W Hk Hnd Hpast Htr Hnxt Hpub Hoth Hent Hob Hms Oobj Othr Cobj Cthr Hz.
    eapply (J_keep P FS cfg t0 s s' c c' t []); try done.
    - by rewrite Hk.
    - by rewrite Hpast.
    - by rewrite Hnxt.
    - intros h. rewrite Hnd. destruct (nd c !! h) as [[??]|]; auto.
    - intros a Ha. by apply elem_of_nil in Ha.
    - intros a j Ha. by apply elem_of_nil in Ha.
    - intros a h j E Ha. by apply elem_of_nil in Ha.
    - intros u i h Hi Ho. rewrite Hk. destruct (decide (u = t)) as [->|Hu]; [by eapply Othr|]. rewrite Hoth in Hi by done. left. eauto.
    - intros Ht u i h e Hi Ho He. destruct (decide (u = t)) as [->|Hu].
      + destruct (Cthr Ht i h e Hi Ho He) as [(i'&?&?)|?]; [|done]. eapply cov_t; [done|done|]. by rewrite Hk.
      + eapply cov_t; [by rewrite Hoth|done|by rewrite Hk].
    - intros Ht h j E n' Hj Hn' H0. rewrite Hnd in Hj. pose proof (Hent h) as Hh. rewrite Hn' in Hh. destruct (entry s h) as [n|] eqn:Hn; [|done].
      destruct (Hz Ht h n n' Hn Hn' H0) as [[Hn0 Hp]|(Hs&i'&Hi'&Hp')].
      + destruct (j_zero _ _ _ _ _ _ HJ Ht h j E n Hj Hn Hn0) as [?|(u&i&Hi&Hpi&HE)]; [left; by etrans|].
        destruct (decide (u = t)) as [->|Hu].
        * destruct (Hp i Hi Hpi) as [(i'&?&?)|?]; [right; exists t, i'; by rewrite Hk|left; by etrans].
        * right. exists u, i. by rewrite Hoth, Hk.
      + right. exists t, i'. rewrite Hk. split_and!; [done..|]. unfold cset in Hs. by rewrite Hj in Hs.
  Qed.

  Lemma public_lock s s' c : lock s' = lock s → public s' c = public s c.
  Proof. intros E. unfold CoreHbInv.public. by rewrite E. Qed.

  (** only stacks, counters and values *)
  Lemma J_move s s' c t : J s c → lock s' = lock s → vars s' = vars s → (∀ u, u ≠ t → stack s' u = stack s u) →
    (∀ h, match entry s h, entry s' h with
          | Some n, Some n' => (∀ a, a ∈ kids n' ↔ a ∈ kids n) ∧ (p_val P (n_rep n') = None → p_val P (n_rep n) = None)
          | None, None => True | _, _ => False end) →
    (∀ i h, i ∈ stack s' t → 0 < own h i → (∃ i0, i0 ∈ stack s t ∧ 0 < own h i0) ∨ knowsW c (knows c t) h) →
    (trk cfg = true → ∀ i h e, i ∈ stack s t → 0 < own h i → e ∈ knows c t →
       (∃ i', i' ∈ stack s' t ∧ 0 < own h i') ∨ cov s' c h e) →
    (trk cfg = true → ∀ h n n', entry s h = Some n → entry s' h = Some n' → n_ref n' = 0%Z →
       (n_ref n = 0%Z ∧ ∀ i, i ∈ stack s t → 0 < pend h i → (∃ i', i' ∈ stack s' t ∧ 0 < pend h i') ∨ knows c t ⊆ public s c) ∨
       (cset c h ⊆ knows c t ∧ ∃ i', i' ∈ stack s' t ∧ 0 < pend h i')) →
    J s' c.
  Proof.
    intros HJ Hl Hv Hoth Hent Othr Cthr Hz. eapply (J_st s s' c c t); try done.
    - apply HJ.
    - by rewrite (public_lock s s').
    - intros x. rewrite Hv. apply (j_ob _ _ _ _ _ _ HJ).
    - rewrite Hl. apply (j_mset _ _ _ _ _ _ HJ).
    - intros x h w r Hx Hw. left. rewrite Hv in Hx. eauto.
    - intros Ht x h w r e Hx Hw He. eapply cov_o; [by rewrite Hv|done|done].
    - by rewrite (public_lock s s').
  Qed.
  Lemma ent_same s s' : (∀ h, entry s' h = entry s h) →
    ∀ h, match entry s h, entry s' h with
         | Some n, Some n' => (∀ a, a ∈ kids n' ↔ a ∈ kids n) ∧ (p_val P (n_rep n') = None → p_val P (n_rep n) = None)
         | None, None => True | _, _ => False end.
  Proof. intros H h. rewrite H. by destruct (entry s h). Qed.

  (** ** An entry is destroyed *)
  Lemma cov_cnt0 s c h e : cnt s h = 0 → cov s c h e → e ∈ cset c h ∨ e ∈ public s c.
  Proof.
    intros H0 H. destruct H as [h j E e Hj He|h e He|h x w r e Hx _ _|h t i e Hi Ho _|h b n e Hb Hk _].
    - left. unfold cset. by rewrite Hj.
    - by right.
    - exfalso. by eapply no_cnt_var.
    - exfalso. pose proof (no_cnt_own _ _ _ _ _ _ H0 Hi). lia.
    - exfalso. by eapply no_cnt_kid.
  Qed.

  Lemma J_destroy s s' c t h n : J s c → (∀ c', public s c' = knows c' t) → entry s h = Some n → cnt s h = 0 →
    (∀ j E a, nd c !! h = Some (j, E) → a ∈ tr c → on j a → a_ev a ∈ knows c t) →
    (trk cfg = true → cset c h ⊆ knows c t) →
    lock s' = lock s → vars s' = vars s → (∀ u, u ≠ t → stack s' u = stack s u) →
    (∀ b, entry s' b = if decide (b = h) then None else entry s b) →
    (∀ i b, i ∈ stack s' t → 0 < own b i → (∃ i0, i0 ∈ stack s t ∧ 0 < own b i0) ∨ b ∈ kids n) →
    J s' (destroy t h c).
  Proof.
    intros HJ Hp Hn H0 Hall Hcs Hlock Hvars Hoth Hent Othr.
    pose proof (λ c', eq_trans (public_lock s s' c' Hlock) (Hp c')) as Hp'.
    destruct (proj2 (j_nd _ _ _ _ _ _ HJ h)) as [[j E] Hj]; [by eexists|]. assert (Hid : idn c h = j) by (unfold idn; by rewrite Hj).
    pose proof (j_wf _ _ _ _ _ _ HJ) as W.
    set (c1 := emit t (destruction (idn c h)) c). assert (W1 : hwf c1).
    { apply emit_wf; [done|]. intros a l Ha Hl (Hloc&_). rewrite Hid in Hl. unfold destruction in Hl.
      rewrite !elem_of_cons, elem_of_nil in Hl. destruct Hl as [->|[->|[->|[->|[]]]]]; simpl in Hloc.
      - rewrite <- Hp. by apply (j_fac _ _ _ _ _ _ HJ).
      - eapply Hall; [done..|by left].
      - eapply Hall; [done..|by right; left].
      - eapply Hall; [done..|by right; right]. }
    assert (W' : hwf (destroy t h c)).
    { apply set_nd_wf; [done|]. intros b i F Hb. apply lookup_delete_Some in Hb as [_ Hb]. by apply (w_nd _ W1 b i F). }
    assert (Hk : ∀ u, knows (destroy t h c) u = if decide (u = t) then knows c t ∪ {[nxt c]} else knows c u) by (intros u; apply knows_emit).
    assert (Hkm : ∀ u, knows c u ⊆ knows (destroy t h c) u) by (intros u; rewrite Hk; case_decide; subst; set_solver).
    assert (Htr : ∀ a, a ∈ tr (destroy t h c) → (a_ev a = nxt c ∧ ∀ j', on j' a → j' = j) ∨ a ∈ tr c).
    { intros a Ha. unfold destroy in Ha. cbn in Ha. rewrite Hid in Ha. rewrite !elem_of_cons in Ha.
      destruct Ha as [->|[->|[->|[->|Ha]]]]; [left; split; [done|]; unfold on; simpl; naive_solver..|by right]. }
    assert (Hnd : ∀ b j' F, nd (destroy t h c) !! b = Some (j', F) → b ≠ h ∧ j' ≠ j ∧ nd c !! b = Some (j', F)).
    { intros b j' F Hb. unfold destroy in Hb. simpl in Hb. apply lookup_delete_Some in Hb as [Hne Hb]. split_and!; [done| |done].
      intros ->. by apply Hne, (j_inj _ _ _ _ _ _ HJ _ _ _ _ _ Hj Hb). }
    assert (Hold : ∀ b j' F a, nd (destroy t h c) !! b = Some (j', F) → a ∈ tr (destroy t h c) → on j' a → nd c !! b = Some (j', F) ∧ a ∈ tr c).
    { intros b j' F a Hb Ha Hon. destruct (Hnd _ _ _ Hb) as (_&Hne&Hb'). destruct (Htr a Ha) as [[_ Hj']|]; [|done]. by specialize (Hj' _ Hon). }
    assert (HW : ∀ b (F F' : gset nat), knowsW c F b → F ⊆ F' → knowsW (destroy t h c) F' b).
    { intros b F F' HF' Hs j' G a Hb Ha Hw. destruct (Hold b j' G a Hb Ha) as [??]; [destruct Hw as [[? _]|[? _]]; unfold on; auto|]. eapply Hs, HF'; eauto. }
    assert (Hpub : public s c ⊆ public s' (destroy t h c)) by (rewrite Hp, Hp'; apply Hkm).
    assert (He0 : ∀ b m, entry s' b = Some m → b ≠ h ∧ entry s b = Some m) by (intros b m; rewrite Hent; case_decide; done).
    split; try done.
    - intros b. rewrite Hent. unfold destroy. simpl. case_decide as Hb; [subst; rewrite lookup_delete; split; intros []; done|].
      rewrite lookup_delete_ne by done. apply (j_nd _ _ _ _ _ _ HJ).
    - intros b j' F Hb. destruct (Hnd _ _ _ Hb) as (_&_&Hb'). destruct (j_cre _ _ _ _ _ _ HJ _ _ _ Hb') as (a&Ha&?&?). exists a.
      split; [|done]. unfold destroy. cbn. rewrite !elem_of_cons. auto.
    - intros b b' j' F F' Hb Hb'. eapply (j_inj _ _ _ _ _ _ HJ); by eapply Hnd.
    - intros a j' Ha Hon. unfold destroy. simpl. destruct (Htr a Ha) as [[_ Hj']|Ha'].
      + rewrite (Hj' _ Hon). destruct (j_cre _ _ _ _ _ _ HJ _ _ _ Hj) as (a'&Ha'&<-&Hw').
        assert (a_ev a' < nxt c); [|lia]. apply (j_loc _ _ _ _ _ _ HJ a'); [done|]. destruct Hw' as [[? _]|[? _]]; unfold on; auto.
      + pose proof (j_loc _ _ _ _ _ _ HJ a j' Ha' Hon). lia.
    - intros x. rewrite Hvars. apply (j_ob _ _ _ _ _ _ HJ).
    - intros El u d Hl. rewrite Hlock in Hl. etrans; [by apply (j_mset _ _ _ _ _ _ HJ El u d)|apply Hkm].
    - intros a Ha Hl. destruct (Htr a Ha) as [[-> _]|Ha']; [rewrite Hp', Hk, decide_True by done; set_solver|].
      apply Hpub. by apply (j_fac _ _ _ _ _ _ HJ).
    - intros b j' F a Hb Ha Hl. destruct (Hold b j' F a Hb Ha) as [??]; [unfold on; auto|]. apply Hpub. by eapply (j_del _ _ _ _ _ _ HJ).
    - intros b. eapply HW; [apply (j_wr _ _ _ _ _ _ HJ)|done].
    - intros x b w r Hx Hw. rewrite Hvars in Hx. eapply HW; [by eapply (j_obj _ _ _ _ _ _ HJ)|done].
    - intros u i b Hi Ho. destruct (decide (u = t)) as [->|Hu].
      + destruct (Othr i b Hi Ho) as [(i0&Hi0&Ho0)|Hkb].
        * eapply HW; [by eapply (j_thr _ _ _ _ _ _ HJ)|apply Hkm].
        * eapply HW; [|apply Hkm]. eapply (knowsW_kid s c _ h n b); [done|apply (w_kn _ W)|by eexists| |done|done].
          rewrite <- Hp. apply (j_wr _ _ _ _ _ _ HJ).
      + rewrite Hoth in Hi by done. eapply HW; [by eapply (j_thr _ _ _ _ _ _ HJ)|apply Hkm].
    - intros b m b' j' F D Hb Hkb Hj' HD. destruct (He0 _ _ Hb) as [_ Hb']. destruct (Hnd _ _ _ Hj') as (_&_&Hj0).
      eapply HW; [|done]. eapply (j_kid _ _ _ _ _ _ HJ); try done.
      unfold destroy in HD. simpl in HD. rewrite lookup_insert_ne in HD; [done|]. intros <-.
      destruct (j_cre _ _ _ _ _ _ HJ _ _ _ Hj0) as (a&Ha&Hev&_). pose proof (closed_lt c _ (a_ev a) W (w_kn _ W _) (w_tr _ W a Ha)). lia.
    - intros b j' F m a Hb Hm Hv Ha Hon. destruct (Hold b j' F a Hb Ha Hon) as [??]. destruct (He0 _ _ Hm). apply Hpub. by eapply (j_unb _ _ _ _ _ _ HJ).
    - intros Ht b j' F a Hb Ha Hon. destruct (Hold b j' F a Hb Ha Hon) as [Hb0 Ha0].
      assert (Hkt : ∀ e b', e ∈ knows c t → cov s' (destroy t h c) b' e) by (intros e b' He; apply cov_p, Hpub; by rewrite Hp).
      eapply (cov_step P FS cfg t0 s s' c (destroy t h c) (λ b, b ≠ h)); [..|by eapply (j_cov _ _ _ _ _ _ HJ)|by eapply Hnd].
      + intros b' j0 E0 e Hne Hj0 He. eapply cov_c; [|done]. unfold destroy. simpl. by rewrite lookup_delete_ne.
      + done.
      + intros x b' w r e _ Hx Hw He. eapply cov_o; [by rewrite Hvars|done|done].
      + intros u i b' e _ Hi Ho He. destruct (decide (u = t)) as [->|Hu]; [by apply Hkt|]. eapply cov_t; [by rewrite Hoth|done|by apply Hkm].
      + intros b' m h' _ Hb' Hkb. destruct (decide (b' = h)) as [->|Hne].
        * right. intros e Hc. apply Hkt. apply cov_cnt0 in Hc as [?|?]; [by apply Hcs|by rewrite <- Hp|done].
        * left. split; [done|]. exists m. by rewrite Hent, decide_False.
    - intros Ht b j' F m Hb Hm Hz. destruct (He0 _ _ Hm) as [Hne Hm']. destruct (Hnd _ _ _ Hb) as (_&_&Hb').
      destruct (j_zero _ _ _ _ _ _ HJ Ht b j' F m Hb' Hm' Hz) as [?|(u&i&?&?&?)]; [left; by etrans|].
      destruct (decide (u = t)) as [->|Hu]; [left; etrans; [|done]; by rewrite Hp|].
      right. exists u, i. rewrite Hoth by done. split_and!; [done..|]. etrans; [done|apply Hkm].
  Qed.

  (** ** An entry is created *)
  Lemma J_create s s' c t a n : Inv s → J s c → (∀ c', public s c' = knows c' t) → entry s a = None →
    n_ref n = 0%Z →
    lock s' = lock s → vars s' = vars s → (∀ u, u ≠ t → stack s' u = stack s u) →
    (∀ b, entry s' b = if decide (b = a) then Some n else entry s b) →
    (∀ i b, i ∈ stack s' t → 0 < own b i → ∃ i0, i0 ∈ stack s t ∧ 0 < own b i0) →
    (∀ b, b ∈ kids n → 0 < cnt s b) →
    J s' (create t a c).
  Proof.
    intros HI HJ Hp Ha0 Hr0 Hlock Hvars Hoth Hent Othr Hkids.
    pose proof (λ c', eq_trans (public_lock s s' c' Hlock) (Hp c')) as Hp'.
    assert (Hc0 : cnt s a = 0).
    { destruct (decide (cnt s a = 0)) as [|Hc]; [done|]. destruct (i_hnd _ _ _ _ _ (i_C _ _ _ _ _ _ _ _ HI) a) as (m&Hm&_); [lia|]. congruence. }
    assert (Hnone : nd c !! a = None).
    { destruct (nd c !! a) eqn:E; [|done]. destruct (proj1 (j_nd _ _ _ _ _ _ HJ a)) as [m Hm]; [by eexists|]. congruence. }
    pose proof (j_wf _ _ _ _ _ _ HJ) as W. set (j := nxt c).
    assert (Hltr : ∀ b : acc, b ∈ tr c → a_ev b < nxt c) by (intros b Hb; eapply closed_lt; [done|apply (w_kn _ W)|by apply (w_tr _ W)]).
    set (N := [(MRep j, Write); (MDel j, Write); (MRef j, Write)]). set (c1 := emit t N c).
    assert (W1 : hwf c1).
    { apply emit_wf; [done|]. intros b l Hb Hl (Hloc&_). exfalso. assert (j < nxt c); [|unfold j in *; lia]. eapply (j_loc _ _ _ _ _ _ HJ b); [done|].
      unfold N in Hl. rewrite !elem_of_cons, elem_of_nil in Hl. unfold on. destruct Hl as [->|[->|[->|[]]]]; simpl in Hloc; auto. }
    assert (W' : hwf (create t a c)).
    { apply set_nd_wf; [done|]. intros b i F Hb. apply lookup_insert_Some in Hb as [[_ [= <- <-]]|[_ Hb]]; [apply closed_empty|by apply (w_nd _ W1 b i F)]. }
    assert (Hk : ∀ u, knows (create t a c) u = if decide (u = t) then knows c t ∪ {[j]} else knows c u) by (intros u; apply knows_emit).
    assert (Hkm : ∀ u, knows c u ⊆ knows (create t a c) u) by (intros u; rewrite Hk; case_decide; subst; set_solver).
    assert (Hjp : j ∈ public s' (create t a c)) by (rewrite Hp', Hk, decide_True by done; set_solver).
    assert (Htr : ∀ b : acc, b ∈ tr (create t a c) → (a_ev b = j ∧ on j b ∧ a_loc b ≠ MFac ∧ ∀ j', on j' b → j' = j) ∨ b ∈ tr c).
    { intros b Hb. unfold create in Hb. cbn in Hb. rewrite !elem_of_cons in Hb. unfold on.
      destruct Hb as [->|[->|[->|Hb]]]; [left; split_and!; simpl; naive_solver..|by right]. }
    assert (Htr1 : ∀ b : acc, b ∈ tr c → b ∈ tr (create t a c)) by (intros b Hb; unfold create; cbn; rewrite !elem_of_cons; auto).
    assert (Hnd : ∀ b j' F, nd (create t a c) !! b = Some (j', F) → (b = a ∧ j' = j ∧ F = ∅) ∨ (b ≠ a ∧ j' < j ∧ nd c !! b = Some (j', F))).
    { intros b j' F Hb. unfold create in Hb. simpl in Hb. apply lookup_insert_Some in Hb as [[<- [= <- <-]]|[Hne Hb]]; [by left|]. right. split_and!; [done| |done].
      destruct (j_cre _ _ _ _ _ _ HJ _ _ _ Hb) as (b'&Hb'&<-&_). by apply Hltr. }
    assert (Hold : ∀ b j' F d, nd (create t a c) !! b = Some (j', F) → d ∈ tr (create t a c) → on j' d →
      (b = a ∧ a_ev d = j) ∨ (b ≠ a ∧ nd c !! b = Some (j', F) ∧ d ∈ tr c)).
    { intros b j' F d Hb Hd Hon. destruct (Hnd _ _ _ Hb) as [(->&->&->)|(Hne&Hlt&Hb')].
      - left. split; [done|]. destruct (Htr d Hd) as [(?&_)|Hd']; [done|]. exfalso. pose proof (j_loc _ _ _ _ _ _ HJ d j Hd' Hon). unfold j in *. lia.
      - right. split_and!; [done..|]. destruct (Htr d Hd) as [(_&_&_&Hj')|Hd']; [|done]. specialize (Hj' _ Hon). lia. }
    assert (HW : ∀ b (F F' : gset nat), b ≠ a → knowsW c F b → F ⊆ F' → knowsW (create t a c) F' b).
    { intros b F F' Hne HF' Hs j' G d Hb Hd Hw. destruct (Hold b j' G d Hb Hd) as [[-> _]|(_&?&?)]; [destruct Hw as [[? _]|[? _]]; unfold on; auto|done|].
      eapply Hs, HF'; eauto. }
    assert (Hpub : public s c ⊆ public s' (create t a c)) by (rewrite Hp, Hp'; apply Hkm).
    assert (He0 : ∀ b m, entry s' b = Some m → (b = a ∧ m = n) ∨ (b ≠ a ∧ entry s b = Some m)).
    { intros b m. rewrite Hent. case_decide; [intros [= <-]; auto|auto]. }
    assert (Hka : ∀ b m, entry s b = Some m → a ∉ kids m) by (intros b m Hb; by eapply no_cnt_kid).
    assert (Hkan : a ∉ kids n) by (intros H; apply Hkids in H; lia).
    split; try done.
    - intros b. rewrite Hent. unfold create. simpl. case_decide as Hb; [subst; rewrite lookup_insert; split; by eexists|].
      rewrite lookup_insert_ne by done. apply (j_nd _ _ _ _ _ _ HJ).
    - intros b j' F Hb. destruct (Hnd _ _ _ Hb) as [(->&->&->)|(_&_&Hb')].
      + exists (Acc j t (MRep j) Write). split_and!; [unfold create; cbn; rewrite !elem_of_cons; auto|done|by left].
      + destruct (j_cre _ _ _ _ _ _ HJ _ _ _ Hb') as (b'&Hb''&?&?). exists b'. auto.
    - intros b b' j' F F' Hb Hb'. destruct (Hnd _ _ _ Hb) as [(->&->&->)|(_&Hlt&Hb1)], (Hnd _ _ _ Hb') as [(->&?&->)|(_&Hlt'&Hb2)]; try done; try lia.
      by eapply (j_inj _ _ _ _ _ _ HJ).
    - intros b j' Hb Hon. unfold create. simpl. destruct (Htr b Hb) as [(_&_&_&Hj')|Hb'].
      + rewrite (Hj' _ Hon). unfold j. lia.
      + pose proof (j_loc _ _ _ _ _ _ HJ b j' Hb' Hon). lia.
    - intros x. rewrite Hvars. apply (j_ob _ _ _ _ _ _ HJ).
    - intros El u d Hl. rewrite Hlock in Hl. etrans; [by apply (j_mset _ _ _ _ _ _ HJ El u d)|apply Hkm].
    - intros b Hb Hl. destruct (Htr b Hb) as [(->&_)|Hb']; [done|]. apply Hpub. by apply (j_fac _ _ _ _ _ _ HJ).
    - intros b j' F d Hb Hd Hl. destruct (Hold b j' F d Hb Hd) as [[-> ->]|(_&?&?)]; [unfold on; auto|done|]. apply Hpub. by eapply (j_del _ _ _ _ _ _ HJ).
    - intros b j' F d Hb Hd Hw. destruct (Hold b j' F d Hb Hd) as [[-> ->]|(_&?&?)]; [destruct Hw as [[? _]|[? _]]; unfold on; auto|done|].
      apply Hpub. by eapply (j_wr _ _ _ _ _ _ HJ).
    - intros x b w r Hx Hw. rewrite Hvars in Hx. eapply HW; [|by eapply (j_obj _ _ _ _ _ _ HJ)|done]. intros ->. by eapply no_cnt_var.
    - assert (H : ∀ u i b, i ∈ stack s u → 0 < own b i → knowsW (create t a c) (knows (create t a c) u) b).
      { intros u i b Hi Ho. eapply HW; [|by eapply (j_thr _ _ _ _ _ _ HJ)|apply Hkm]. intros ->.
        pose proof (no_cnt_own _ _ _ _ _ _ Hc0 Hi). lia. }
      intros u i b Hi Ho. destruct (decide (u = t)) as [->|Hu]; [|rewrite Hoth in Hi by done; by eapply H].
      destruct (Othr i b Hi Ho) as (i0&Hi0&Ho0). by eapply H.
    - intros b m b' j' F D Hb Hkb Hj' HD. destruct (He0 _ _ Hb) as [[-> ->]|[Hne Hb']].
      + destruct (Hnd _ _ _ Hj') as [(_&->&_)|[? _]]; [|done]. unfold create in HD. simpl in HD. rewrite lookup_insert in HD. injection HD as <-.
        eapply HW; [congruence|apply (j_wr _ _ _ _ _ _ HJ)|by rewrite Hp].
      + destruct (Hnd _ _ _ Hj') as [[? _]|(_&Hlt&Hj0)]; [done|]. unfold create in HD. simpl in HD. rewrite lookup_insert_ne in HD by (unfold j in *; lia).
        eapply HW; [|by eapply (j_kid _ _ _ _ _ _ HJ)|done]. intros ->. by eapply Hka.
    - intros b j' F m d Hb Hm Hv Hd Hon. destruct (Hold b j' F d Hb Hd Hon) as [[-> ->]|(Hne&?&?)]; [done|]. destruct (He0 _ _ Hm) as [[? _]|[_ ?]]; [done|].
      apply Hpub. by eapply (j_unb _ _ _ _ _ _ HJ).
    - intros Ht b j' F d Hb Hd Hon. destruct (Hold b j' F d Hb Hd Hon) as [[-> ->]|(Hne&Hb0&Hd0)]; [by apply cov_p|].
      eapply (cov_step P FS cfg t0 s s' c (create t a c) (λ _, True)); [..|by eapply (j_cov _ _ _ _ _ _ HJ)|done].
      + intros b' j0 E0 e _ Hj0 He. eapply cov_c; [|done]. unfold create. simpl. rewrite lookup_insert_ne; [done|]. congruence.
      + done.
      + intros x b' w r e _ Hx Hw He. eapply cov_o; [by rewrite Hvars|done|done].
      + intros u i b' e _ Hi Ho He. destruct (decide (u = t)) as [->|Hu]; [by apply cov_p, Hpub; rewrite Hp|].
        eapply cov_t; [by rewrite Hoth|done|by apply Hkm].
      + intros b' m h' _ Hb' Hkb. left. split; [done|]. exists m. split; [|done]. rewrite Hent, decide_False; [done|]. congruence.
    - intros Ht b j' F m Hb Hm Hz. destruct (Hnd _ _ _ Hb) as [(->&->&->)|(Hne&_&Hb')]; [left; set_solver|].
      destruct (He0 _ _ Hm) as [[? _]|[_ Hm']]; [done|].
      destruct (j_zero _ _ _ _ _ _ HJ Ht b j' F m Hb' Hm' Hz) as [?|(u&i&?&?&?)]; [left; by etrans|].
      destruct (decide (u = t)) as [->|Hu]; [left; etrans; [|done]; by rewrite Hp|].
      right. exists u, i. rewrite Hoth by done. split_and!; [done..|]. etrans; [done|apply Hkm].
  Qed.
End Step.
