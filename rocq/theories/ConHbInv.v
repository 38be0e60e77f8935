(** Invariant of [ConHb.v], cf. [CoreHbInv.v]: whatever was done with an entry
    is known to its counter, to whoever has or next gets access to it, or to a
    flyweight or thread that still counts, directly or through the entries that
    hold flyweights of this one. *)
From Verif Require Export CoreHbStep ConHb.
From Verif Require Export ConcurrentInv ConcurrentStep.

Section Inv.
  Context {K A R V : Type}.
  Context (P : Core.policy K A R V) (eqv : K → K → bool) (good : R → Prop).
  Context (Heq : equivalence eqv) (HP : policy_ok eqv good P).

  Notation state := (state (K:=K) (A:=A) (R:=R)).
  Notation instr := (instr (K:=K) (A:=A) (R:=R)).
  Notation node := (node (R:=R)).
  Notation Inv := (Inv P eqv good).
  Notation own := (own P).
  Notation cnt := (cnt P).
  Notation kids n := (p_kids P (n_rep n)).
  Implicit Types (s : state) (c : hb) (n : node) (h b : addr) (i : instr) (L : addr → gset nat).

  (** known to whoever has, or next gets, access to [h] *)
  Definition vis s c L h : gset nat :=
    match ents s !! h with
    | Some n => match n_own n with Some t => knows c t | None => L h end
    | None => ∅
    end.

  (** [e] will be known to whoever destroys [h] *)
  Inductive cov s c L : addr → nat → Prop :=
  | cov_c h j E e : nd c !! h = Some (j, E) → e ∈ E → cov s c L h e
  | cov_v h e : e ∈ vis s c L h → cov s c L h e
  | cov_o h x w r e : vars s !! x = Some (Some h) → ob c !! x = Some (w, r) → e ∈ w ∪ r → cov s c L h e
  | cov_t h t i e : i ∈ stack s t → 0 < own h i → e ∈ knows c t → cov s c L h e
  | cov_k h b n e : ents s !! b = Some n → h ∈ kids n → cov s c L b e → cov s c L h e.

  Record J s c L : Prop := {
    j_wf : hwf c;
    j_lk : ∀ h, closed c (L h);
    j_nd : ∀ h, is_Some (nd c !! h) ↔ is_Some (ents s !! h);
    j_cre : ∀ h j E, nd c !! h = Some (j, E) → ∃ a, a ∈ tr c ∧ a_ev a = j ∧ wr j a;
    j_inj : ∀ h h' j E E', nd c !! h = Some (j, E) → nd c !! h' = Some (j, E') → h = h';
    j_loc : ∀ a j, a ∈ tr c → on j a → j < nxt c;
    j_ob : ∀ x, is_Some (ob c !! x) ↔ ∃ h, vars s !! x = Some (Some h);
    j_in : ∀ h n t, ents s !! h = Some n → n_own n = Some t → L h ⊆ knows c t;
    j_wr : ∀ h, knowsW c (vis s c L h) h;
    j_obj : ∀ x h w r, vars s !! x = Some (Some h) → ob c !! x = Some (w, r) → knowsW c w h;
    j_thr : ∀ t i h, i ∈ stack s t → 0 < own h i → knowsW c (knows c t) h;
    j_kid : ∀ b n h j E D, ents s !! b = Some n → h ∈ kids n → nd c !! b = Some (j, E) → past c !! j = Some D → knowsW c D h;
    j_unb : ∀ h j E n a, nd c !! h = Some (j, E) → ents s !! h = Some n → p_val P (n_rep n) = None → a ∈ tr c → on j a → a_ev a ∈ vis s c L h;
    j_cov : ∀ h j E a, nd c !! h = Some (j, E) → a ∈ tr c → on j a → cov s c L h (a_ev a);
    j_zero : ∀ t h j E, IErase h ∈ stack s t → nd c !! h = Some (j, E) → E ⊆ knows c t;
  }.

  (** ** Elementary facts *)
  Lemma no_cnt_var s x h : cnt s h = 0 → vars s !! x ≠ Some (Some h).
  Proof. intros H0 Hx. pose proof (cnt_var P s x h Hx). lia. Qed.
  Lemma no_cnt_own s t i h : cnt s h = 0 → i ∈ stack s t → own h i = 0.
  Proof. intros H0 Hi. pose proof (tsum_elem (own h) s t i Hi). unfold ConcurrentInv.cnt in H0. lia. Qed.
  Lemma no_cnt_kid s b n h : cnt s h = 0 → ents s !! b = Some n → h ∉ kids n.
  Proof. intros H0 Hb Hk. pose proof (cnt_kid P s b n h Hb Hk). lia. Qed.
  Lemma vis_own s c L h n t : ents s !! h = Some n → n_own n = Some t → vis s c L h = knows c t.
  Proof. unfold vis. by intros -> ->. Qed.
  Lemma vis_free s c L h n : ents s !! h = Some n → n_own n = None → vis s c L h = L h.
  Proof. unfold vis. by intros -> ->. Qed.
  Lemma vis_in s c L h t i : Inv s → i ∈ stack s t → 0 < acc h i → vis s c L h = knows c t.
  Proof. intros HI Hi Ha. destruct (accessed P eqv good s t i h HI Hi Ha) as (n&Hn&Ho). by eapply vis_own. Qed.

  Lemma cov_step s s' c c' L L' (Q : addr → Prop) :
    (∀ h j E e, Q h → nd c !! h = Some (j, E) → e ∈ E → cov s' c' L' h e) →
    (∀ h e, Q h → e ∈ vis s c L h → cov s' c' L' h e) →
    (∀ x h w r e, Q h → vars s !! x = Some (Some h) → ob c !! x = Some (w, r) → e ∈ w ∪ r → cov s' c' L' h e) →
    (∀ t i h e, Q h → i ∈ stack s t → 0 < own h i → e ∈ knows c t → cov s' c' L' h e) →
    (∀ b n h, Q h → ents s !! b = Some n → h ∈ kids n →
       (Q b ∧ ∃ n', ents s' !! b = Some n' ∧ h ∈ kids n') ∨ ∀ e, cov s c L b e → cov s' c' L' h e) →
    ∀ h e, cov s c L h e → Q h → cov s' c' L' h e.
  Proof.
    intros Hc Hp Ho Ht Hk h e H. induction H as [h j E e Hn He|h e He|h x w r e Hx Hw He|h t i e Hi Ho' He|h b n e Hb Hkb Hcv IH]; intros HQ.
    - by eapply Hc.
    - by apply Hp.
    - by eapply Ho.
    - by eapply Ht.
    - destruct (Hk b n h HQ Hb Hkb) as [(HQb&n'&Hn'&Hk')|Hall]; [|by apply Hall]. eapply cov_k; [done|done|by apply IH].
  Qed.

  Definition ent_ok s s' : Prop := ∀ h,
    match ents s !! h, ents s' !! h with
    | Some n, Some n' => (∀ a, a ∈ kids n' ↔ a ∈ kids n) ∧ (p_val P (n_rep n') = None → p_val P (n_rep n) = None)
    | None, None => True | _, _ => False end.

  (** ** A step that neither creates nor destroys an entry *)
  Lemma J_keep s s' c c' L L' t N : J s c L → hwf c' → (∀ h, closed c' (L' h)) →
    (∀ u, u ≠ t → knows c' u = knows c u) → knows c t ⊆ knows c' t → (∀ h, vis s c L h ⊆ vis s' c' L' h) →
    (∀ e D, past c !! e = Some D → past c' !! e = Some D) → nxt c ≤ nxt c' → tr c' = N ++ tr c →
    (∀ h, match nd c !! h, nd c' !! h with Some (j, E), Some (j', E') => j' = j ∧ E ⊆ E' | None, None => True | _, _ => False end) →
    ent_ok s s' →
    (∀ x, is_Some (ob c' !! x) ↔ ∃ h, vars s' !! x = Some (Some h)) →
    (∀ h n u, ents s' !! h = Some n → n_own n = Some u → L' h ⊆ knows c' u) →
    (∀ a j, a ∈ N → on j a → ∃ h E, nd c !! h = Some (j, E)) →
    (∀ a h j E, a ∈ N → nd c !! h = Some (j, E) → on j a →
       (wr j a → a_ev a ∈ vis s' c' L' h ∧ cnt s' h = 0) ∧
       (∀ n', ents s' !! h = Some n' → p_val P (n_rep n') = None → a_ev a ∈ vis s' c' L' h) ∧ cov s' c' L' h (a_ev a)) →
    (∀ x h w r, vars s' !! x = Some (Some h) → ob c' !! x = Some (w, r) →
       (∃ w0 r0, vars s !! x = Some (Some h) ∧ ob c !! x = Some (w0, r0) ∧ w0 ⊆ w) ∨ knowsW c w h) →
    (∀ u i h, i ∈ stack s' u → 0 < own h i → (∃ i0, i0 ∈ stack s u ∧ 0 < own h i0) ∨ knowsW c (knows c' u) h) →
    (∀ x h w r e, vars s !! x = Some (Some h) → ob c !! x = Some (w, r) → e ∈ w ∪ r → cov s' c' L' h e) →
    (∀ u i h e, i ∈ stack s u → 0 < own h i → e ∈ knows c u → cov s' c' L' h e) →
    (∀ u h j E', IErase h ∈ stack s' u → nd c' !! h = Some (j, E') → E' ⊆ knows c' u) →
    J s' c' L'.
  Proof.
    intros HJ W HL Hoth Hkt Hvis Hpast Hnxt Htr Hnd Hent Hob Hin Nid Nacc Oobj Othr Cobj Cthr Hz.
    assert (Hk : ∀ u, knows c u ⊆ knows c' u) by (intros u; destruct (decide (u = t)) as [->|Hu]; [done|by rewrite Hoth]).
    assert (Hn0 : ∀ h j E', nd c' !! h = Some (j, E') → ∃ E, nd c !! h = Some (j, E) ∧ E ⊆ E').
    { intros h j E' H. specialize (Hnd h). rewrite H in Hnd. destruct (nd c !! h) as [[j0 E0]|]; [|done]. destruct Hnd as [-> ?]. eauto. }
    assert (Hn1 : ∀ h j E, nd c !! h = Some (j, E) → ∃ E', nd c' !! h = Some (j, E') ∧ E ⊆ E').
    { intros h j E H. specialize (Hnd h). rewrite H in Hnd. destruct (nd c' !! h) as [[j0 E0]|]; [|done]. destruct Hnd as [-> ?]. eauto. }
    assert (He0 : ∀ h n', ents s' !! h = Some n' → ∃ n, ents s !! h = Some n ∧ (∀ a, a ∈ kids n' ↔ a ∈ kids n) ∧ (p_val P (n_rep n') = None → p_val P (n_rep n) = None)).
    { intros h n' H. specialize (Hent h). rewrite H in Hent. destruct (ents s !! h) as [n|]; [|done]. eauto. }
    assert (He1 : ∀ h n, ents s !! h = Some n → ∃ n', ents s' !! h = Some n' ∧ (∀ a, a ∈ kids n' ↔ a ∈ kids n)).
    { intros h n H. specialize (Hent h). rewrite H in Hent. destruct (ents s' !! h) as [n'|]; [|done]. destruct Hent. eauto. }
    assert (Htr' : ∀ a, a ∈ tr c' → a ∈ N ∨ a ∈ tr c) by (intros a; rewrite Htr; apply elem_of_app).
    assert (HW : ∀ h (E E' : gset nat), knowsW c E h → E ⊆ E' → (cnt s' h = 0 → vis s' c' L' h ⊆ E') → knowsW c' E' h).
    { intros h E E' HE Hs H0 j F a Hj Ha Hw. destruct (Hn0 _ _ _ Hj) as (F0&Hj0&_). destruct (Htr' a Ha) as [HaN|Ha0].
      - destruct (Nacc a h j F0 HaN Hj0) as (H1&_); [destruct Hw as [[? _]|[? _]]; unfold on; auto|]. destruct (H1 Hw). by apply H0.
      - eapply Hs, HE; eauto. }
    destruct HJ as [Jwf Jlk Jnd Jcre Jinj Jloc Job Jin Jwr Jobj Jthr Jkid Junb Jcov Jz].
    assert (Hcov : ∀ h e, cov s c L h e → cov s' c' L' h e).
    { intros h e Hcv. eapply (cov_step s s' c c' L L' (λ _, True)); try done.
      - intros h' j E e' _ Hj He. destruct (Hn1 _ _ _ Hj) as (E'&Hj'&Hs). eapply cov_c; eauto.
      - intros h' e' _ He. by apply cov_v, Hvis.
      - intros x h' w r e' _. by apply Cobj.
      - intros u i h' e' _. by apply Cthr.
      - intros b n h' _ Hb Hkb. left. split; [done|]. destruct (He1 _ _ Hb) as (n'&Hn'&Hkk). exists n'. split; [done|by apply Hkk]. }
    split; try done.
    - intros h. specialize (Hnd h). specialize (Hent h). specialize (Jnd h).
      destruct (nd c !! h) as [[??]|], (nd c' !! h) as [[??]|], (ents s !! h), (ents s' !! h); try done; rewrite ?is_Some_alt in *; simpl in *; tauto.
    - intros h j E' H. destruct (Hn0 _ _ _ H) as (E&H0&_). destruct (Jcre _ _ _ H0) as (a&?&?&?). exists a. rewrite Htr, elem_of_app. auto.
    - intros h h' j E E' H H'. destruct (Hn0 _ _ _ H) as (?&H0&_). destruct (Hn0 _ _ _ H') as (?&H0'&_). by eapply Jinj.
    - intros a j Ha Hon. destruct (Htr' a Ha) as [HaN|Ha0]; [|specialize (Jloc a j Ha0 Hon); lia].
      destruct (Nid a j HaN Hon) as (h&E&Hj). destruct (Jcre _ _ _ Hj) as (a'&Ha'&<-&Hw).
      assert (a_ev a' < nxt c); [|lia]. apply (Jloc a'); [done|]. destruct Hw as [[? _]|[? _]]; unfold on; auto.
    - intros h. eapply HW; [apply Jwr|done|done].
    - intros x h w r Hx Hw. destruct (Oobj x h w r Hx Hw) as [(w0&r0&Hx0&Hw0&Hs)|H0].
      + eapply HW; [by eapply Jobj|done|]. intros H0. by apply no_cnt_var with (x:=x) in H0.
      + eapply HW; [done|done|]. intros H1. by apply no_cnt_var with (x:=x) in H1.
    - intros u i h Hi Ho. assert (cnt s' h ≠ 0) by (pose proof (cnt_own P _ _ _ _ Hi Ho); lia).
      destruct (Othr u i h Hi Ho) as [(i0&Hi0&Ho0)|H0].
      + eapply HW; [by eapply Jthr|apply Hk|done].
      + by eapply HW.
    - intros b n' h j E D Hb Hkb Hj HD. destruct (Hn0 _ _ _ Hj) as (E0&Hj0&_). destruct (He0 _ _ Hb) as (n&Hn&Hkk&_).
      assert (cnt s' h ≠ 0) by (pose proof (cnt_kid P _ _ _ _ Hb Hkb); lia).
      destruct (Jcre _ _ _ Hj0) as (a&Ha&Hev&_). destruct (w_kn _ Jwf _ _ (w_tr _ Jwf _ Ha)) as (D0&HD0&_). rewrite Hev in HD0.
      assert (D = D0) as -> by (apply Hpast in HD0; congruence).
      eapply HW; [eapply Jkid; [done|by apply Hkk|done|done]|done|done].
    - intros h j E' n' a Hj Hn' Hv Ha Hon. destruct (Hn0 _ _ _ Hj) as (E&Hj0&_). destruct (He0 _ _ Hn') as (n&Hn&_&Hv0).
      destruct (Htr' a Ha) as [HaN|Ha0]; [|eapply Hvis, Junb; eauto]. destruct (Nacc a h j E HaN Hj0 Hon) as (_&Hu&_). eauto.
    - intros h j E' a Hj Ha Hon. destruct (Hn0 _ _ _ Hj) as (E&Hj0&_).
      destruct (Htr' a Ha) as [HaN|Ha0]; [|apply Hcov; by eapply Jcov]. destruct (Nacc a h j E HaN Hj0 Hon) as (_&_&Hu). auto.
  Qed.

  Lemma ent_refl s : ent_ok s s.
  Proof. intros h. by destruct (ents s !! h). Qed.

  (** ** Knowledge grows, the machine of [Concurrent.v] stands still *)
  Lemma J_hb s c c' L t N : Inv s → J s c L → hwf c' →
    (∀ u, u ≠ t → knows c' u = knows c u) → knows c t ⊆ knows c' t →
    (∀ e D, past c !! e = Some D → past c' !! e = Some D) → nxt c ≤ nxt c' → tr c' = N ++ tr c →
    (∀ h, match nd c !! h, nd c' !! h with
          | Some (j, E), Some (j', E') => j' = j ∧ E ⊆ E' ∧ (E' = E ∨ ∀ u, IErase h ∉ stack s u) | None, None => True | _, _ => False end) →
    (∀ x, match ob c !! x, ob c' !! x with
          | Some (w, r), Some (w', r') => w' = w ∧ r ⊆ r' | None, None => True | _, _ => False end) →
    (∀ a j, a ∈ N → on j a → ∃ h E, nd c !! h = Some (j, E)) →
    (∀ a h j E, a ∈ N → nd c !! h = Some (j, E) → on j a →
       (wr j a → a_ev a ∈ vis s c' L h ∧ cnt s h = 0) ∧
       (∀ n, ents s !! h = Some n → p_val P (n_rep n) = None → a_ev a ∈ vis s c' L h) ∧ cov s c' L h (a_ev a)) →
    J s c' L.
  Proof.
    intros HI HJ W Hoth Hkt Hpast Hnxt Htr Hnd Hob Nid Nacc.
    assert (Hk : ∀ u, knows c u ⊆ knows c' u) by (intros u; destruct (decide (u = t)) as [->|Hu]; [done|by rewrite Hoth]).
    eapply (J_keep s s c c' L L t N); try done.
    - intros h. eapply closed_past; [done|apply (j_lk _ _ _ HJ)].
    - intros h. unfold vis. destruct (ents s !! h) as [n|]; [|done]. by destruct (n_own n).
    - intros h. specialize (Hnd h). repeat case_match; try done. naive_solver.
    - apply ent_refl.
    - intros x. rewrite <- (j_ob _ _ _ HJ x). specialize (Hob x).
      destruct (ob c !! x) as [[??]|], (ob c' !! x) as [[??]|]; try done; rewrite !is_Some_alt; done.
    - intros h n u Hn Ho. etrans; [by eapply (j_in _ _ _ HJ)|apply Hk].
    - intros x h w r Hx Hw. left. specialize (Hob x). rewrite Hw in Hob. destruct (ob c !! x) as [[w0 r0]|] eqn:E; [|done].
      destruct Hob as [-> _]. eauto.
    - intros u i h Hi Ho. left. eauto.
    - intros x h w r e Hx Hw He. specialize (Hob x). rewrite Hw in Hob. destruct (ob c' !! x) as [[w' r']|] eqn:E; [|done].
      destruct Hob as [-> Hr]. eapply cov_o; [done|done|]. set_solver.
    - intros u i h e Hi Ho He. eapply cov_t; [done|done|]. by apply Hk.
    - intros u h j E' Hi Hj. pose proof (Hnd h) as Hh. rewrite Hj in Hh. destruct (nd c !! h) as [[j0 E]|] eqn:Ej; [|done].
      destruct Hh as (-> & Hs & [->|Hc]); [etrans; [by eapply (j_zero _ _ _ HJ)|apply Hk]|]. by apply Hc in Hi.
  Qed.

  Lemma J_learn s c L t E : Inv s → J s c L → closed c E → J s (learn t E c) L.
  Proof.
    intros HI HJ HE. eapply (J_hb s c _ L t []); try done.
    - apply learn_wf; [apply HJ|done].
    - intros u Hu. by rewrite knows_learn, decide_False.
    - rewrite knows_learn, decide_True by done. set_solver.
    - intros h. simpl. destruct (nd c !! h) as [[??]|]; auto.
    - intros x. simpl. destruct (ob c !! x) as [[??]|]; auto.
    - intros a j Ha. by apply elem_of_nil in Ha.
    - intros a h j E' Ha. by apply elem_of_nil in Ha.
  Qed.

  (** an entry is read or written by whoever has access to it *)
  Lemma J_see s c L t h n k : Inv s → J s c L → ents s !! h = Some n → n_own n = Some t →
    (k = Read ∨ (k = Write ∧ p_val P (n_rep n) = None)) → J s (emit t [(MRep (idn c h), k)] c) L.
  Proof.
    intros HI HJ Hn Ho Hk. pose proof (λ c', vis_own s c' L h n t Hn Ho) as Hv.
    destruct (proj2 (j_nd _ _ _ HJ h)) as [[j E] Hj]; [eauto|]. assert (Hid : idn c h = j) by (unfold idn; by rewrite Hj). rewrite Hid.
    assert (Hnew : nxt c ∈ vis s (emit t [(MRep j, k)] c) L h) by (rewrite Hv, knows_emit, decide_True by done; set_solver).
    eapply (J_hb s c _ L t [Acc (nxt c) t (MRep j) k]); try done.
    - apply emit_wf; [apply HJ|]. intros a l Ha ->%elem_of_list_singleton (Hl&Hr&_). rewrite <- (Hv c). simpl in *. destruct Hk as [->|[-> Hu]].
      + eapply (j_wr _ _ _ HJ); [done|done|]. left. split; [done|]. intros ?. by apply Hr.
      + eapply (j_unb _ _ _ HJ); try done. by left.
    - intros u Hu. by rewrite knows_emit, decide_False.
    - rewrite knows_emit, decide_True by done. set_solver.
    - intros e D He. apply past_emit; [apply HJ|done].
    - simpl. lia.
    - intros b. simpl. destruct (nd c !! b) as [[??]|]; auto.
    - intros x. simpl. destruct (ob c !! x) as [[??]|]; auto.
    - intros a j0 ->%elem_of_list_singleton Hon. unfold on in Hon. simpl in Hon. exists h, E. naive_solver.
    - intros a b j0 E0 ->%elem_of_list_singleton Hj0 Hon. assert (j0 = j) as -> by (unfold on in Hon; simpl in Hon; naive_solver).
      assert (b = h) as -> by (by eapply (j_inj _ _ _ HJ)). split_and!; [|done|by apply cov_v].
      intros Hw. split; [done|]. unfold wr in Hw. simpl in Hw. destruct Hk as [->|[-> Hu]]; [naive_solver|].
      by apply (i_cnt _ _ _ _ HI h n Hn).
  Qed.

  (** what is known of an entry is known of the entries it holds *)
  Lemma knowsW_kid s c L E b n h : J s c L → closed c E → is_Some (nd c !! b) → knowsW c E b → ents s !! b = Some n → h ∈ kids n → knowsW c E h.
  Proof.
    intros HJ HE [[j F] Hj] HW Hb Hk. destruct (j_cre _ _ _ HJ _ _ _ Hj) as (a&Ha&Hev&Hw).
    assert (Hj' : j ∈ E) by (rewrite <- Hev; by eapply HW). destruct (HE _ Hj') as (D&HD&Hs).
    pose proof (j_kid _ _ _ HJ _ _ _ _ _ _ Hb Hk Hj HD) as Hkn. intros j' F' a' H1 H2 H3. apply Hs. by eapply Hkn.
  Qed.

  (** an entry is read through an object *)
  Lemma J_touch s c L t x h h' : Inv s → J s c L → vars s !! x = Some (Some h) →
    (∀ c e, cov s c L h e → cov s c L h' e) → knowsW c (knows c t) h' → (∃ n', ents s !! h' = Some n' ∧ p_val P (n_rep n') ≠ None) →
    J s (used t x (emit t [(MRep (idn c h'), Read)] c)) L.
  Proof.
    intros HI HJ Hx Hdn HW Hb. assert (He : is_Some (ents s !! h')) by (destruct Hb as (?&?&_); eauto).
    destruct (proj2 (j_nd _ _ _ HJ h') He) as [[j E] Hj]. destruct (proj2 (j_ob _ _ _ HJ x)) as [[w r] Hw]; [by exists h|].
    pose proof (j_wf _ _ _ HJ) as W.
    assert (Hid : idn c h' = j) by (unfold idn; by rewrite Hj).
    assert (W1 : hwf (emit t [(MRep (idn c h'), Read)] c)).
    { apply emit_wf; [done|]. intros a l Ha ->%elem_of_list_singleton (Hl&Hr&_). eapply HW; [done|done|]. left. split; [by rewrite Hl, Hid|].
      intros ?. by apply Hr. }
    unfold used. simpl. rewrite Hw.
    eapply (J_hb s c _ L t [Acc (nxt c) t (MRep j) Read]); try done.
    - apply set_ob_wf; [done|]. intros x' w' r' H. apply lookup_insert_Some in H as [[<- [= <- <-]]|[_ H]].
      + destruct (w_ob _ W1 x w r Hw). split; [done|]. apply closed_union; [done|apply (w_kn _ W1)].
      + apply (w_ob _ W1 x' w' r' H).
    - intros u Hu. by rewrite knows_set_ob, knows_emit, decide_False.
    - rewrite ?knows_set_ob, knows_emit, decide_True by done. set_solver.
    - intros e D HD. by apply (past_emit t [(MRep (idn c h'), Read)] c e D W).
    - simpl. lia.
    - simpl. by rewrite Hid.
    - intros h0. simpl. destruct (nd c !! h0) as [[??]|]; auto.
    - intros x'. simpl. destruct (decide (x' = x)) as [->|Hne].
      + rewrite Hw, lookup_insert. split; [done|set_solver].
      + rewrite lookup_insert_ne by done. destruct (ob c !! x') as [[??]|]; auto.
    - intros a j0 ->%elem_of_list_singleton Hon. unfold on in Hon. simpl in Hon. exists h', E. naive_solver.
    - intros a h0 j0 E0 ->%elem_of_list_singleton Hj0 Hon. assert (j0 = j) as -> by (unfold on in Hon; simpl in Hon; naive_solver).
      assert (h0 = h') as -> by (by eapply (j_inj _ _ _ HJ)). split_and!.
      + unfold wr. simpl. naive_solver.
      + intros n Hn Hv. destruct Hb as (n'&Hn'&Hv'). congruence.
      + simpl. apply Hdn. eapply cov_o; [done|simpl; by rewrite lookup_insert|].
        rewrite !elem_of_union. right. right. rewrite ?knows_set_ob, knows_emit, decide_True by done. set_solver.
  Qed.

  (** an atomic operation on a counter: through an object, by a thread that
      counts, or with access *)
  Lemma J_rmw s c L t h acq rls (o : option var) : Inv s → J s c L → knowsW c (knows c t) h → is_Some (ents s !! h) → (∀ u, IErase h ∉ stack s u) →
    match o with
    | Some x => ∃ h0, vars s !! x = Some (Some h0) ∧ ∀ c e, cov s c L h0 e → cov s c L h e
    | None => (∃ i, i ∈ stack s t ∧ 0 < own h i) ∨ ∀ c, vis s c L h = knows c t
    end → (0 < cnt s h ∨ ∀ c, vis s c L h = knows c t) →
    J s (match o with Some x => used t x (rmw acq rls t h c) | None => rmw acq rls t h c end) L.
  Proof.
    intros HI HJ HW He Her Hby Hor.
    destruct (proj2 (j_nd _ _ _ HJ h) He) as [[j E] Hj].
    pose proof (rmw_wf acq rls t h c (j_wf _ _ _ HJ) HW ltac:(eauto)) as W.
    pose proof (rmw_rest acq rls t h c) as (Rm&Ro&Rp&Rn&Rt). pose proof (knows_rmw acq rls t h c) as Rk. pose proof (nd_rmw acq rls t h c j E Hj) as Rd.
    set (c1 := rmw acq rls t h c) in *. set (c' := match o with Some x => used t x c1 | None => c1 end).
    assert (Hid : idn c h = j) by (unfold idn; by rewrite Hj). rewrite Hid in Rt.
    assert (F : hwf c' ∧ (∀ u, knows c' u = knows c1 u) ∧ mset c' = mset c1 ∧ past c' = past c1 ∧ nxt c' = nxt c1 ∧ tr c' = tr c1 ∧ nd c' = nd c1).
    { unfold c', used. destruct o as [x|]; [|done]. destruct (ob c1 !! x) as [[w r]|] eqn:Hw; [|done]. split; [|done].
      apply set_ob_wf; [done|]. intros x' w' r' H. apply lookup_insert_Some in H as [[<- [= <- <-]]|[_ H]]; [|apply (w_ob _ W x' w' r' H)].
      destruct (w_ob _ W x w r Hw). split; [done|]. apply closed_union; [done|apply (w_kn _ W)]. }
    destruct F as (W'&Fk&Fm&Fp&Fn&Ft&Fd).
    assert (Hin : nxt c ∈ knows c' t) by (rewrite Fk, Rk, decide_True by done; set_solver).
    eapply (J_hb s c c' L t [Acc (nxt c) t (MRef j) Atomic]); try done.
    - intros u Hu. by rewrite Fk, Rk, decide_False.
    - rewrite Fk, Rk, decide_True by done. set_solver.
    - intros e D HD. rewrite Fp, Rp, lookup_insert_ne; [done|]. intros <-. apply (w_dom _ (j_wf _ _ _ HJ)) in HD. lia.
    - lia.
    - by rewrite Ft, Rt.
    - intros h0. rewrite Fd, Rd. destruct rls; [|destruct (nd c !! h0) as [[??]|]; auto]. destruct (decide (h0 = h)) as [->|Hne].
      + rewrite Hj, lookup_insert. split_and!; [done|set_solver|by right].
      + rewrite lookup_insert_ne by done. destruct (nd c !! h0) as [[??]|]; auto.
    - intros x'. unfold c', used. destruct o as [x|]; rewrite ?Ro; [|destruct (ob c !! x') as [[??]|]; auto].
      destruct (ob c !! x) as [[w r]|] eqn:Hw; rewrite ?Ro; [|destruct (ob c !! x') as [[??]|]; auto]. simpl. rewrite ?Ro.
      destruct (decide (x' = x)) as [->|Hne].
      + rewrite Hw, lookup_insert. split; [done|set_solver].
      + rewrite lookup_insert_ne by done. destruct (ob c !! x') as [[??]|]; auto.
    - intros a j0 ->%elem_of_list_singleton Hon. unfold on in Hon. simpl in Hon. exists h, E. naive_solver.
    - intros a h0 j0 E0 ->%elem_of_list_singleton Hj0 Hon. assert (j0 = j) as -> by (unfold on in Hon; simpl in Hon; naive_solver).
      assert (h0 = h) as -> by (by eapply (j_inj _ _ _ HJ)). split_and!.
      + unfold wr. simpl. naive_solver.
      + intros n' Hn' Hv'. simpl. destruct Hor as [Hc|Hc]; [|by rewrite Hc]. destruct (i_cnt _ _ _ _ HI h n' Hn') as [_ H0]. specialize (H0 Hv'). lia.
      + simpl. destruct o as [x|].
        * destruct Hby as (h0&Hx&Hdn). destruct (proj2 (j_ob _ _ _ HJ x)) as [[w r] Hw]; [by exists h0|].
          apply Hdn. eapply cov_o; [done|unfold c', used; rewrite Ro, Hw; simpl; by rewrite lookup_insert|]. rewrite <- Fk. set_solver.
        * destruct Hby as [(i&Hi&Ho)|Hv]; [by eapply cov_t|]. apply cov_v. by rewrite Hv.
  Qed.
End Inv.
