(** Invariant of [CoreHb.v]: whatever was done with an entry is known to its
    counter, to the mutex, or to a flyweight or thread that still counts,
    directly or through the entries that hold flyweights of this one. *)
From Verif Require Export CoreHbWf CoreOps CoreRace.

Section Inv.
  Context {K A R V : Type}.
  Context (P : policy K A R V) (FS : factory K) (cfg : config).
  Context (eqv : K → K → bool) (good : R → Prop).
  Context (Heq : equivalence eqv) (HP : policy_ok eqv good P) (HF : factory_spec eqv FS).
  Context (t0 : tid).

  Notation state := (state (R:=R) (K:=K) (A:=A) FS).
  Notation instr := (instr (K:=K) (A:=A) (R:=R)).
  Notation node := (node (R:=R)).
  Notation Inv := (Inv P FS cfg eqv good HF t0).
  Notation allowed := (allowed cfg t0).
  Notation own := (own P).
  Notation cnt := (cnt P FS).
  Notation kids n := (p_kids P (n_rep n)).
  Implicit Types (s : state) (c : hb) (n : node) (h b : addr) (i : instr).

  (** known to whoever holds, or next takes, the mutex *)
  Definition public s c : gset nat :=
    if lck cfg then match lock s with Some (t, _) => knows c t | None => mset c end else knows c t0.

  (** accesses to the entry created by event [j]; to its construction *)
  Definition on (j : nat) (a : acc) : Prop := a_loc a = MRep j ∨ a_loc a = MDel j ∨ a_loc a = MRef j.
  Definition wr (j : nat) (a : acc) : Prop := (a_loc a = MRep j ∧ a_kind a ≠ Read) ∨ (a_loc a = MRef j ∧ a_kind a ≠ Atomic).
  Definition knowsW c (E : gset nat) h : Prop := ∀ j F a, nd c !! h = Some (j, F) → a ∈ tr c → wr j a → a_ev a ∈ E.

  (** [e] will be known to whoever destroys [h] *)
  Inductive cov s c : addr → nat → Prop :=
  | cov_c h j E e : nd c !! h = Some (j, E) → e ∈ E → cov s c h e
  | cov_p h e : e ∈ public s c → cov s c h e
  | cov_o h x w r e : vars s !! x = Some (Some h) → ob c !! x = Some (w, r) → e ∈ w ∪ r → cov s c h e
  | cov_t h t i e : i ∈ stack s t → 0 < own h i → e ∈ knows c t → cov s c h e
  | cov_k h b n e : entry s b = Some n → h ∈ kids n → cov s c b e → cov s c h e.

  Record J s c : Prop := {
    j_wf : hwf c;
    j_nd : ∀ h, is_Some (nd c !! h) ↔ is_Some (entry s h);
    j_cre : ∀ h j E, nd c !! h = Some (j, E) → ∃ a, a ∈ tr c ∧ a_ev a = j ∧ wr j a;
    j_inj : ∀ h h' j E E', nd c !! h = Some (j, E) → nd c !! h' = Some (j, E') → h = h';
    j_loc : ∀ a j, a ∈ tr c → on j a → j < nxt c;
    j_ob : ∀ x, is_Some (ob c !! x) ↔ ∃ h, vars s !! x = Some (Some h);
    j_mset : lck cfg = true → ∀ t d, lock s = Some (t, d) → mset c ⊆ knows c t;
    j_fac : ∀ a, a ∈ tr c → a_loc a = MFac → a_ev a ∈ public s c;
    j_del : ∀ h j E a, nd c !! h = Some (j, E) → a ∈ tr c → a_loc a = MDel j → a_ev a ∈ public s c;
    j_wr : ∀ h, knowsW c (public s c) h;
    j_obj : ∀ x h w r, vars s !! x = Some (Some h) → ob c !! x = Some (w, r) → knowsW c w h;
    j_thr : ∀ t i h, i ∈ stack s t → 0 < own h i → knowsW c (knows c t) h;
    j_kid : ∀ b n h j E D, entry s b = Some n → h ∈ kids n → nd c !! b = Some (j, E) → past c !! j = Some D → knowsW c D h;
    j_unb : ∀ h j E n a, nd c !! h = Some (j, E) → entry s h = Some n → p_val P (n_rep n) = None → a ∈ tr c → on j a → a_ev a ∈ public s c;
    j_cov : trk cfg = true → ∀ h j E a, nd c !! h = Some (j, E) → a ∈ tr c → on j a → cov s c h (a_ev a);
    j_zero : trk cfg = true → ∀ h j E n, nd c !! h = Some (j, E) → entry s h = Some n → n_ref n = 0%Z →
      E ⊆ public s c ∨ ∃ t i, i ∈ stack s t ∧ 0 < pend h i ∧ E ⊆ knows c t;
  }.

  (** ** Elementary facts *)
  Lemma no_cnt_var s x h : cnt s h = 0 → vars s !! x ≠ Some (Some h).
  Proof. intros H0 Hx. pose proof (var_cnt P FS s x h Hx). lia. Qed.
  Lemma no_cnt_own s t i h : cnt s h = 0 → i ∈ stack s t → own h i = 0.
  Proof. intros H0 Hi. pose proof (tsum_elem FS (own h) s t i Hi). unfold CoreInv.cnt in H0. lia. Qed.
  Lemma no_cnt_kid s b n h : cnt s h = 0 → entry s b = Some n → h ∉ kids n.
  Proof. intros H0 Hb Hk. pose proof (kid_cnt P FS s b n h Hb Hk). lia. Qed.
  Lemma own_cnt s t i h : i ∈ stack s t → 0 < own h i → 0 < cnt s h.
  Proof. intros Hi Ho. pose proof (tsum_elem FS (own h) s t i Hi). unfold CoreInv.cnt. lia. Qed.

  (** the mutex belongs to a thread in a critical section *)
  Lemma crit_public s c t : Inv s → 0 < lsum ulk (stack s t) → public s c = knows c t.
  Proof.
    intros [_ _ HS] Hu. unfold public. destruct (lck cfg) eqn:El.
    - pose proof (i_lock _ _ _ _ HS El) as L. destruct (lock s) as [[t' d]|].
      + destruct L as (_&_&L). destruct (decide (t' = t)) as [->|Hne]; [done|]. rewrite L in Hu by done. lia.
      + rewrite L in Hu. lia.
    - destruct (decide (t = t0)) as [->|Hne]; [done|]. rewrite (i_solo _ _ _ _ HS El) in Hu by done. rewrite lsum_nil in Hu. lia.
  Qed.
  Lemma crit_head s c t i rest : Inv s → stack s t = i :: rest → ulk i = 1 → public s c = knows c t.
  Proof. intros HI E U. apply crit_public; [done|]. rewrite E, lsum_cons. lia. Qed.

  Lemma cov_step s s' c c' (Q : addr → Prop) :
    (∀ h j E e, Q h → nd c !! h = Some (j, E) → e ∈ E → cov s' c' h e) →
    (public s c ⊆ public s' c') →
    (∀ x h w r e, Q h → vars s !! x = Some (Some h) → ob c !! x = Some (w, r) → e ∈ w ∪ r → cov s' c' h e) →
    (∀ t i h e, Q h → i ∈ stack s t → 0 < own h i → e ∈ knows c t → cov s' c' h e) →
    (∀ b n h, Q h → entry s b = Some n → h ∈ kids n →
       (Q b ∧ ∃ n', entry s' b = Some n' ∧ h ∈ kids n') ∨ ∀ e, cov s c b e → cov s' c' h e) →
    ∀ h e, cov s c h e → Q h → cov s' c' h e.
  Proof.
    intros Hc Hp Ho Ht Hk h e H. induction H as [h j E e Hn He|h e He|h x w r e Hx Hw He|h t i e Hi Ho' He|h b n e Hb Hkb Hcv IH]; intros HQ.
    - by eapply Hc.
    - by apply cov_p, Hp.
    - by eapply Ho.
    - by eapply Ht.
    - destruct (Hk b n h HQ Hb Hkb) as [(HQb&n'&Hn'&Hk')|Hall]; [|by apply Hall]. eapply cov_k; [done|done|by apply IH].
  Qed.

  (** ** A step that neither creates nor destroys an entry *)
  Lemma J_keep s s' c c' t N : J s c → hwf c' →
    (∀ u, u ≠ t → knows c' u = knows c u) → knows c t ⊆ knows c' t → public s c ⊆ public s' c' →
    (∀ e D, past c !! e = Some D → past c' !! e = Some D) → nxt c ≤ nxt c' → tr c' = N ++ tr c →
    (∀ h, match nd c !! h, nd c' !! h with Some (j, E), Some (j', E') => j' = j ∧ E ⊆ E' | None, None => True | _, _ => False end) →
    (∀ h, match entry s h, entry s' h with
          | Some n, Some n' => (∀ a, a ∈ kids n' ↔ a ∈ kids n) ∧ (p_val P (n_rep n') = None → p_val P (n_rep n) = None)
          | None, None => True | _, _ => False end) →
    (∀ x, is_Some (ob c' !! x) ↔ ∃ h, vars s' !! x = Some (Some h)) →
    (lck cfg = true → ∀ u d, lock s' = Some (u, d) → mset c' ⊆ knows c' u) →
    (∀ a, a ∈ N → a_loc a = MFac → a_ev a ∈ public s' c') →
    (∀ a j, a ∈ N → on j a → ∃ h E, nd c !! h = Some (j, E)) →
    (∀ a h j E, a ∈ N → nd c !! h = Some (j, E) → on j a →
       (a_loc a = MDel j → a_ev a ∈ public s' c') ∧ (wr j a → a_ev a ∈ public s' c' ∧ cnt s' h = 0) ∧
       (∀ n', entry s' h = Some n' → p_val P (n_rep n') = None → a_ev a ∈ public s' c') ∧ (trk cfg = true → cov s' c' h (a_ev a))) →
    (∀ x h w r, vars s' !! x = Some (Some h) → ob c' !! x = Some (w, r) →
       (∃ w0 r0, vars s !! x = Some (Some h) ∧ ob c !! x = Some (w0, r0) ∧ w0 ⊆ w) ∨ knowsW c w h) →
    (∀ u i h, i ∈ stack s' u → 0 < own h i → (∃ i0, i0 ∈ stack s u ∧ 0 < own h i0) ∨ knowsW c (knows c' u) h) →
    (trk cfg = true → ∀ x h w r e, vars s !! x = Some (Some h) → ob c !! x = Some (w, r) → e ∈ w ∪ r → cov s' c' h e) →
    (trk cfg = true → ∀ u i h e, i ∈ stack s u → 0 < own h i → e ∈ knows c u → cov s' c' h e) →
    (trk cfg = true → ∀ h j E' n', nd c' !! h = Some (j, E') → entry s' h = Some n' → n_ref n' = 0%Z →
       E' ⊆ public s' c' ∨ ∃ u i, i ∈ stack s' u ∧ 0 < pend h i ∧ E' ⊆ knows c' u) →
    J s' c'.
  Proof.
    intros HJ W Hoth Hkt Hpub Hpast Hnxt Htr Hnd Hent Hob Hms Nfac Nid Nacc Oobj Othr Cobj Cthr Hz.
    assert (Hk : ∀ u, knows c u ⊆ knows c' u) by (intros u; destruct (decide (u = t)) as [->|Hu]; [done|by rewrite Hoth]).
    assert (Hn0 : ∀ h j E', nd c' !! h = Some (j, E') → ∃ E, nd c !! h = Some (j, E) ∧ E ⊆ E').
    { intros h j E' H. specialize (Hnd h). rewrite H in Hnd. destruct (nd c !! h) as [[j0 E0]|]; [|done]. destruct Hnd as [-> ?]. eauto. }
    assert (Hn1 : ∀ h j E, nd c !! h = Some (j, E) → ∃ E', nd c' !! h = Some (j, E') ∧ E ⊆ E').
    { intros h j E H. specialize (Hnd h). rewrite H in Hnd. destruct (nd c' !! h) as [[j0 E0]|]; [|done]. destruct Hnd as [-> ?]. eauto. }
    assert (He0 : ∀ h n', entry s' h = Some n' → ∃ n, entry s h = Some n ∧ (∀ a, a ∈ kids n' ↔ a ∈ kids n) ∧ (p_val P (n_rep n') = None → p_val P (n_rep n) = None)).
    { intros h n' H. specialize (Hent h). rewrite H in Hent. destruct (entry s h) as [n|]; [|done]. eauto. }
    assert (He1 : ∀ h n, entry s h = Some n → ∃ n', entry s' h = Some n' ∧ (∀ a, a ∈ kids n' ↔ a ∈ kids n)).
    { intros h n H. specialize (Hent h). rewrite H in Hent. destruct (entry s' h) as [n'|]; [|done]. destruct Hent. eauto. }
    assert (Htr' : ∀ a, a ∈ tr c' → a ∈ N ∨ a ∈ tr c) by (intros a; rewrite Htr; apply elem_of_app).
    (* what is known about constructions *)
    assert (HW : ∀ h (E E' : gset nat), knowsW c E h → E ⊆ E' → (cnt s' h = 0 → public s' c' ⊆ E') → knowsW c' E' h).
    { intros h E E' HE Hs H0 j F a Hj Ha Hw. destruct (Hn0 _ _ _ Hj) as (F0&Hj0&_). destruct (Htr' a Ha) as [HaN|Ha0].
      - destruct (Nacc a h j F0 HaN Hj0) as (_&H1&_); [destruct Hw as [[? _]|[? _]]; unfold on; auto|]. destruct (H1 Hw). by apply H0.
      - eapply Hs, HE; eauto. }
    destruct HJ as [Jwf Jnd Jcre Jinj Jloc Job Jms Jfac Jdel Jwr Jobj Jthr Jkid Junb Jcov Jz].
    assert (Hcov : trk cfg = true → ∀ h e, cov s c h e → cov s' c' h e).
    { intros Ht h e Hcv. eapply (cov_step s s' c c' (λ _, True)); try done.
      - intros h' j E e' _ Hj He. destruct (Hn1 _ _ _ Hj) as (E'&Hj'&Hs). eapply cov_c; eauto.
      - intros x h' w r e' _. by apply Cobj.
      - intros u i h' e' _. by apply Cthr.
      - intros b n h' _ Hb Hkb. left. split; [done|]. destruct (He1 _ _ Hb) as (n'&Hn'&Hkk). exists n'. split; [done|by apply Hkk]. }
    split; try done.
    - intros h. specialize (Hnd h). specialize (Hent h). specialize (Jnd h).
      destruct (nd c !! h) as [[??]|], (nd c' !! h) as [[??]|], (entry s h), (entry s' h); try done; rewrite ?is_Some_alt in *; simpl in *; tauto.
    - intros h j E' H. destruct (Hn0 _ _ _ H) as (E&H0&_). destruct (Jcre _ _ _ H0) as (a&?&?&?). exists a. rewrite Htr, elem_of_app. auto.
    - intros h h' j E E' H H'. destruct (Hn0 _ _ _ H) as (?&H0&_). destruct (Hn0 _ _ _ H') as (?&H0'&_). by eapply Jinj.
    - intros a j Ha Hon. destruct (Htr' a Ha) as [HaN|Ha0]; [|specialize (Jloc a j Ha0 Hon); lia].
      destruct (Nid a j HaN Hon) as (h&E&Hj). destruct (Jcre _ _ _ Hj) as (a'&Ha'&<-&Hw).
      assert (a_ev a' < nxt c); [|lia]. apply (Jloc a'); [done|]. destruct Hw as [[? _]|[? _]]; unfold on; auto.
    - intros a Ha Hl. destruct (Htr' a Ha) as [HaN|Ha0]; [by apply Nfac|by apply Hpub, Jfac].
    - intros h j E' a H Ha Hl. destruct (Hn0 _ _ _ H) as (E&H0&_). destruct (Htr' a Ha) as [HaN|Ha0]; [|by eapply Hpub, Jdel].
      destruct (Nacc a h j E HaN H0) as (Hd&_); [unfold on; auto|]. by apply Hd.
    - intros h. eapply HW; [apply Jwr|done|done].
    - intros x h w r Hx Hw. destruct (Oobj x h w r Hx Hw) as [(w0&r0&Hx0&Hw0&Hs)|H0].
      + eapply HW; [by eapply Jobj|done|]. intros H0. by apply no_cnt_var with (x:=x) in H0.
      + eapply HW; [done|done|]. intros H1. by apply no_cnt_var with (x:=x) in H1.
    - intros u i h Hi Ho. assert (cnt s' h ≠ 0) by (pose proof (own_cnt _ _ _ _ Hi Ho); lia).
      destruct (Othr u i h Hi Ho) as [(i0&Hi0&Ho0)|H0].
      + eapply HW; [by eapply Jthr|apply Hk|done].
      + by eapply HW.
    - intros b n' h j E D Hb Hkb Hj HD. destruct (Hn0 _ _ _ Hj) as (E0&Hj0&_). destruct (He0 _ _ Hb) as (n&Hn&Hkk&_).
      assert (cnt s' h ≠ 0) by (pose proof (kid_cnt P FS _ _ _ _ Hb Hkb); lia).
      destruct (Jcre _ _ _ Hj0) as (a&Ha&Hev&_). destruct (w_kn _ Jwf _ _ (w_tr _ Jwf _ Ha)) as (D0&HD0&_). rewrite Hev in HD0.
      assert (D = D0) as -> by (apply Hpast in HD0; congruence).
      eapply HW; [eapply Jkid; [done|by apply Hkk|done|done]|done|done].
    - intros h j E' n' a Hj Hn' Hv Ha Hon. destruct (Hn0 _ _ _ Hj) as (E&Hj0&_). destruct (He0 _ _ Hn') as (n&Hn&_&Hv0).
      destruct (Htr' a Ha) as [HaN|Ha0]; [|eapply Hpub, Junb; eauto]. destruct (Nacc a h j E HaN Hj0 Hon) as (_&_&Hu&_). eauto.
    - intros Ht h j E' a Hj Ha Hon. destruct (Hn0 _ _ _ Hj) as (E&Hj0&_).
      destruct (Htr' a Ha) as [HaN|Ha0]; [|apply Hcov; [done|by eapply Jcov]]. destruct (Nacc a h j E HaN Hj0 Hon) as (_&_&_&Hu). auto.
  Qed.
End Inv.
