(** C58: accesses are ordered by happens-before with concurrent_factory. *)
From Verif Require Import Chb.

Definition h_ref (p : pc) : nat := match p with Unlock true | GDec _ | DRef => 1 | _ => 0 end.
Definition h_use (p : pc) : nat := match p with VValue | VRef | Unlock true | KRef _ | GInc _ | GDec _ | GRead _ | DRef | Erase => 1 | _ => 0 end.
Definition locked (p : pc) : bool := match p with VFind | VValue | VRef | Unlock _ | ELoad | Erase | OKey => true | _ => false end.
(** what it does is known to nobody else *)
Definition carries (p : pc) : bool := match p with KRef _ | GInc _ | GDec _ | GRead _ | DRef => true | _ => false end.
Definition one {X} (_ : X) : nat := 1.
Definition rc (n : entry) : Z := match hist n with w :: _ => w.1.2 | [] => 0%Z end.
Definition cset (n : entry) : gset nat := match hist n with w :: _ => w.2 | [] => ∅ end.

Section proofs.
  Context (inc_sync dec_acq : bool).
  Notation step := (step inc_sync true dec_acq true).
  Notation run := (run inc_sync true dec_acq true).
  Definition reachable (s : state) : Prop := ∃ ls, run init ls = Next s.

  (** known to whoever holds, or next takes, the lock *)
  Definition public (s : state) : gset nat := match own s with Some u => knows s u | None => mset s end.

  Record base (s : state) : Prop := Base {
    b_own : ∀ t, own s = Some t ↔ ∃ p, thr s !! t = Some p ∧ locked p = true;
    b_mset : ∀ t, own s = Some t → mset s ⊆ knows s t;
    b_use : ∀ t p x, thr s !! t = Some p → uses x p = true → is_Some (objs s !! x);
    b_nob : ∀ x, nob s ≤ x → objs s !! x = None;
  }.
  (** construction of entry and value is in E *)
  Definition made (n : entry) (E : gset nat) : Prop := cre n ∈ E ∧ ∃ e, val n = Some e ∧ e ∈ E.
  Record entry_ok (s : state) (n : entry) : Prop := EntryOk {
    n_hist : hist n ≠ [];
    n_ref : rc n = Z.of_nat (msum one (objs s) + msum h_ref (thr s));
    n_cre : cre n ∈ public s;
    n_val : ∀ e, val n = Some e → e ∈ public s;
    n_none : val n = None → cset n = ∅;
    n_obj : ∀ x w r, objs s !! x = Some (w, r) → made n w;
    n_thr : ∀ t p, thr s !! t = Some p → carries p = true → made n (knows s t);
    n_vref : ∀ t p, thr s !! t = Some p → p = VRef ∨ p = Unlock true → is_Some (val n);
    n_evs : ∀ e, e ∈ evs n → e ∈ cset n ∨ e ∈ public s ∨ (∃ x w r, objs s !! x = Some (w, r) ∧ (e ∈ w ∨ e ∈ r)) ∨
              (∃ t p, thr s !! t = Some p ∧ carries p = true ∧ e ∈ knows s t);
    n_old : ∀ i w w', hist n !! i = Some w → hist n !! S i = Some w' → w'.1.2 = 0%Z → w.1.1 ∈ public s;
    n_gc : ∀ t, thr s !! t = Some Erase → rc n = 0%Z ∧ evs n ⊆ knows s t;
  }.
  Definition inv (s : state) : Prop :=
    base s ∧ match ent s with Some n => entry_ok s n | None => objs s = ∅ ∧ msum h_use (thr s) = 0 end.

  Lemma knows_insert (t u : nat) (E : gset nat) (k : gmap nat (gset nat)) :
    default ∅ (<[t:=E]> k !! u) = if decide (u = t) then E else (default ∅ (k !! u) : gset nat).
  Proof. case_decide as Hu; [subst; by rewrite lookup_insert|by rewrite lookup_insert_ne]. Qed.
  Lemma knows_learn t E s u : knows (learn t E s) u = if decide (u = t) then knows s t ∪ E else knows s u.
  Proof. apply knows_insert. Qed.
  Lemma knows_event t s u : knows (event t s) u = if decide (u = t) then knows s t ∪ {[nxt s]} else knows s u.
  Proof. apply knows_insert. Qed.
  Lemma knows_event_same t s : knows (event t s) t = knows s t ∪ {[nxt s]}.
  Proof. by rewrite knows_event, decide_True. Qed.
  Lemma knows_upd s' s t E : kn s' = <[t:=E]> (kn s) → ∀ u, knows s' u = if decide (u = t) then E else knows s u.
  Proof. intros H u. unfold knows. rewrite H. apply knows_insert. Qed.
  Lemma made_mono n E E' : made n E → E ⊆ E' → made n E'.
  Proof. intros [H1 (e & H2 & H3)] HE. split; [by apply HE|]. exists e. split; [done|by apply HE]. Qed.

  Definition move (t : nat) (q : option pc) (m : gmap nat pc) : gmap nat pc := match q with Some q => <[t:=q]> m | None => delete t m end.
  Definition onO {X} (d : X) (f : pc → X) (q : option pc) : X := match q with Some q => f q | None => d end.
  Lemma move_lookup t q m u : move t q m !! u = if decide (u = t) then q else m !! u.
  Proof.
    case_decide as Hu; [subst|]; destruct q; simpl; by rewrite ?lookup_insert, ?lookup_delete, ?lookup_insert_ne, ?lookup_delete_ne.
  Qed.
  Lemma msum_move f t q (m : gmap nat pc) : msum f (move t q m) + onO 0 f (m !! t) = msum f m + onO 0 f q.
  Proof.
    destruct (m !! t) as [p|] eqn:Ep, q as [q|]; simpl.
    - by apply msum_upd.
    - pose proof (msum_delete f m t p Ep). lia.
    - rewrite msum_new by done. lia.
    - by rewrite delete_notin by done.
  Qed.

  (** one thread moves on, knowledge grows *)
  Record grows (s s' : state) (t : nat) (q : option pc) : Prop := Grows {
    g_thr : thr s' = move t q (thr s);
    g_oth : ∀ u, u ≠ t → knows s' u = knows s u;
    g_kn : knows s t ⊆ knows s' t;
    g_pub : public s ⊆ public s';
  }.
  Lemma grows_knows s s' t q u : grows s s' t q → knows s u ⊆ knows s' u.
  Proof. intros Gr. destruct (decide (u = t)) as [->|Hu]; [apply Gr|by rewrite (g_oth _ _ _ _ Gr)]. Qed.
  Definition held (s : state) (n : entry) (e : nat) : Prop :=
    e ∈ cset n ∨ e ∈ public s ∨ ∃ x w r, objs s !! x = Some (w, r) ∧ (e ∈ w ∨ e ∈ r).
  Lemma entry_step s s' n n' t q : grows s s' t q → entry_ok s n → cre n' = cre n →
    val n' = val n ∨ (val n = None ∧ ∃ e, val n' = Some e ∧ e ∈ public s') →
    hist n' = hist n ∨ (val n' ≠ None ∧ cset n ⊆ cset n' ∧ ∃ w, hist n' = w :: hist n ∧ (rc n = 0%Z → w.1.1 ∈ public s')) →
    rc n' = Z.of_nat (msum one (objs s') + msum h_ref (thr s')) →
    (∀ x w r, objs s' !! x = Some (w, r) → made n' w) →
    (∀ x w r, objs s !! x = Some (w, r) → (∃ w' r', objs s' !! x = Some (w', r') ∧ w ⊆ w' ∧ r ⊆ r') ∨ (w ∪ r ⊆ knows s' t ∧ onO false carries q = true)) →
    (onO false carries q = true → made n' (knows s' t)) →
    (q = Some VRef ∨ q = Some (Unlock true) → is_Some (val n')) →
    (onO false carries q = false → (∃ p, thr s !! t = Some p ∧ carries p = true) ∨ evs n' ≠ evs n → ∀ e, e ∈ knows s' t → held s' n' e) →
    evs n' ⊆ evs n ∪ knows s' t →
    ((∃ g, g ≠ t ∧ thr s !! g = Some Erase) → hist n' = hist n ∧ evs n' = evs n) →
    (q = Some Erase → rc n' = 0%Z ∧ evs n' ⊆ knows s' t) →
    entry_ok s' n'.
  Proof.
    intros Gr I Ecr Ev Eh Hr Ho Hk Hc Hv Hh He Hg Hq. pose proof (λ u, grows_knows _ _ _ _ u Gr) as Gk. destruct Gr as [Gt Go _ Gp].
    assert (cset n ⊆ cset n') as Ec by (destruct Eh as [Eh|(_ & ? & _)]; [unfold cset; by rewrite Eh|done]).
    assert (∀ E, made n E → made n' E) as Hmade.
    { intros E [H1 (e & H2 & H3)]. split; [congruence|]. exists e. split; [|done]. destruct Ev as [|[? _]]; congruence. }
    destruct I as [Ih Ir Icr Iv Ino Io It Ivr Ie Iol Ig]. split; try done.
    - destruct Eh as [Eh|(_ & _ & w & Eh & _)]; by rewrite Eh.
    - rewrite Ecr. by apply Gp.
    - intros e E. destruct Ev as [Ev|(_ & e' & Ev & Hp)]; [apply Gp, Iv; congruence|congruence].
    - intros Hn. destruct Eh as [Eh|(? & _)]; [|done]. unfold cset. rewrite Eh. apply Ino. destruct Ev as [|(? & ? & ? & _)]; congruence.
    - intros u p Hu Hp. rewrite Gt, move_lookup in Hu. case_decide as Hut; [subst; by apply Hc|].
      rewrite Go by done. apply Hmade. by eapply It.
    - intros u p Hu Hp. rewrite Gt, move_lookup in Hu. case_decide as Hut; [subst; apply Hv; destruct Hp; subst; auto|].
      destruct (Ivr u p Hu Hp) as [e E]. destruct Ev as [Ev|(? & _)]; [rewrite Ev; eauto|congruence].
    - assert (onO false carries q = true → ∀ e, e ∈ knows s' t → ∃ t p, thr s' !! t = Some p ∧ carries p = true ∧ e ∈ knows s' t) as Hq'.
      { intros Hq' e Het. destruct q as [q|]; [|done]. exists t, q. split; [|done]. rewrite Gt, move_lookup. by rewrite decide_True. }
      assert (∀ e, held s' n' e → e ∈ cset n' ∨ e ∈ public s' ∨ (∃ x w r, objs s' !! x = Some (w, r) ∧ (e ∈ w ∨ e ∈ r)) ∨
              (∃ t p, thr s' !! t = Some p ∧ carries p = true ∧ e ∈ knows s' t)) as Hheld by (intros e [?|[?|?]]; auto).
      intros e Hin. destruct (decide (e ∈ evs n)) as [Hold|Hnew].
      + destruct (Ie e Hold) as [?|[?|[(x & w & r & Hx & Hor)|(u & p & Hu & Hp & Hk')]]]; [auto|auto|..].
        * destruct (Hk _ _ _ Hx) as [(w' & r' & Hx' & Hw & Hr')|[Hwr Hq'']]; [|do 3 right; apply Hq'; [done|set_solver]].
          right; right; left. exists x, w', r'. split; [done|]. destruct Hor; auto.
        * destruct (decide (u = t)) as [->|Hut].
          -- apply Gk in Hk'. destruct (onO false carries q) eqn:Eq; [by do 3 right; apply Hq'|]. apply Hheld, Hh; eauto.
          -- do 3 right. exists u, p. rewrite Gt, move_lookup, decide_False by done. split; [done|]. split; [done|]. by apply Gk.
      + assert (e ∈ knows s' t) as Het by (apply He in Hin; set_solver). destruct (onO false carries q) eqn:Eq; [by do 3 right; apply Hq'|].
        apply Hheld, Hh; [done| |done]. right. intros E. rewrite E in Hin. done.
    - intros i w w' Hi Hi' Hz. destruct Eh as [Eh|(_ & _ & v & Eh & Hv')]; rewrite Eh in Hi, Hi'; [by eapply Gp, Iol|].
      destruct i as [|i]; [|by eapply Gp, Iol]. simpl in Hi, Hi'. simplify_eq. apply Hv'. unfold rc. destruct (hist n) as [|x l]; [done|]. simpl in Hi'. by simplify_eq.
    - intros u Hu. rewrite Gt, move_lookup in Hu. case_decide as Hut; [subst; by apply Hq|].
      destruct Hg as [Hg1 Hg2]; [eauto|]. unfold rc. rewrite Hg1, Hg2, Go by done. by apply Ig.
  Qed.
  Lemma base_step s s' t q : grows s s' t q → base s →
    (∀ u, own s' = Some u ↔ ∃ p, thr s' !! u = Some p ∧ locked p = true) →
    (∀ u, own s' = Some u → mset s' ⊆ knows s' u) →
    (∀ u p x, thr s !! u = Some p → u ≠ t → uses x p = true → is_Some (objs s !! x) → is_Some (objs s' !! x)) →
    (∀ p x, q = Some p → uses x p = true → is_Some (objs s' !! x)) →
    (∀ x, nob s' ≤ x → objs s' !! x = None) → base s'.
  Proof.
    intros Gr I Ho Hm Hu Hq Hn. destruct Gr as [Gt _ _ Gp]. destruct I as [Io Im Iu In]. split; try done.
    intros u p x Hp Hx. rewrite Gt, move_lookup in Hp. case_decide; [subst; by eapply Hq|]. eapply Hu; try done. by eapply Iu.
  Qed.
  (** the lock stays with whom it is *)
  Lemma own_same s s' t q : base s → thr s' = move t q (thr s) → own s' = own s →
    onO false locked (thr s !! t) = onO false locked q →
    ∀ u, own s' = Some u ↔ ∃ p, thr s' !! u = Some p ∧ locked p = true.
  Proof.
    intros I Ht Eo Hl u. rewrite Eo, (b_own _ I), Ht, move_lookup. case_decide as Hut; [subst u|done].
    destruct (thr s !! t) as [p|], q as [q|]; split; intros (r & Hr & Hlr); simplify_eq; simpl in Hl; try (eexists; split; [done|]; congruence); congruence.
  Qed.
  Lemma own_only s t p u q : base s → thr s !! t = Some p → locked p = true → thr s !! u = Some q → locked q = true → u = t.
  Proof.
    intros I Ht Hp Hu Hq. assert (own s = Some t) by (apply (b_own _ I); eauto). assert (own s = Some u) by (apply (b_own _ I); eauto). congruence.
  Qed.
  Lemma grows_intro s s' t q E : (∀ u, knows s' u = if decide (u = t) then E else knows s u) → thr s' = move t q (thr s) →
    knows s t ⊆ E → public s ⊆ public s' → grows s s' t q.
  Proof. intros Hk Ht HE Hp. split; [done|intros u Hu; rewrite Hk; by rewrite decide_False|rewrite Hk; by rewrite decide_True|done]. Qed.
  Lemma public_same s s' : own s' = own s → mset s ⊆ mset s' → (∀ u, knows s u ⊆ knows s' u) → public s ⊆ public s'.
  Proof. intros Eo Hm Hk. unfold public. rewrite Eo. destruct (own s); done. Qed.
  Lemma public_own s t : own s = Some t → public s = knows s t.
  Proof. unfold public. by intros ->. Qed.
  Lemma own_of s t p : base s → thr s !! t = Some p → locked p = true → own s = Some t.
  Proof. intros I Ht Hp. apply (b_own _ I). eauto. Qed.
  Lemma no_gc s t p : base s → thr s !! t = Some p → locked p = true → ¬ ∃ g, g ≠ t ∧ thr s !! g = Some Erase.
  Proof. intros B Hp Lp (g & Hg & Hg'). apply Hg. by eapply (own_only _ _ _ _ _ B Hp Lp Hg'). Qed.
  Lemma no_gc_count s n t : entry_ok s n → rc n ≠ 0%Z → ¬ ∃ g, g ≠ t ∧ thr s !! g = Some Erase.
  Proof. intros I Hn (g & _ & Hg). by destruct (n_gc _ _ I g Hg). Qed.

  (** nothing but the thread, its knowledge and the lock changes, and no use of the entry begins or ends *)
  Lemma inv_pure s s' t q : inv s → grows s s' t q →
    (∀ u, own s' = Some u ↔ ∃ p, thr s' !! u = Some p ∧ locked p = true) → (∀ u, own s' = Some u → mset s' ⊆ knows s' u) →
    ent s' = ent s → objs s' = objs s → nob s' = nob s →
    onO 0 h_ref (thr s !! t) = onO 0 h_ref q →
    onO 0 h_use (thr s !! t) = onO 0 h_use q → onO false carries (thr s !! t) = onO false carries q →
    (∀ p, q = Some p → p = VRef ∨ p = Unlock true ∨ p = Erase ∨ (∃ x, uses x p = true) → thr s !! t = Some p) →
    inv s'.
  Proof.
    intros [B I] Gr Ho Hm He Hob Hn H1 H4 H5 H6.
    pose proof (msum_move h_ref t q (thr s)) as M1. pose proof (msum_move h_use t q (thr s)) as M4.
    pose proof (g_thr _ _ _ _ Gr) as Et. split.
    - eapply base_step; [done|done|done|done|..].
      + intros u p x _ _ _. by rewrite Hob.
      + intros p x Hq Hx. rewrite Hob. eapply (b_use _ B t p); [apply H6; eauto 10|done].
      + rewrite Hn, Hob. apply B.
    - rewrite He. destruct (ent s) as [n|] eqn:En; [|rewrite Hob, Et; split; [apply I|lia]].
      eapply (entry_step s s' n n); rewrite ?Hob, ?Et; try done.
      + by left.
      + by left.
      + rewrite (n_ref _ _ I). lia.
      + apply I.
      + intros x w r Hx. left. eauto.
      + rewrite <- H5. intros Hc. destruct (thr s !! t) eqn:E; [|done]. eapply made_mono; [by eapply (n_thr _ _ I)|by eapply grows_knows].
      + intros Hq. destruct Hq as [Hq|Hq]; eapply (n_vref _ _ I t); eauto.
      + rewrite <- H5. intros Hc [(p & Hp & Hpc)|]; [|done]. rewrite Hp in Hc. simpl in Hc. congruence.
      + set_solver.
      + intros Hq. destruct (n_gc _ _ I t) as [Hg1 Hg2]; [apply H6; auto|]. split; [done|]. etrans; [done|]. by eapply grows_knows.
  Qed.
  Lemma acquire_inv s t p q : inv s → thr s !! t = Some p → locked p = false → locked q = true → h_ref p = h_ref q →
    h_use p = h_use q → carries p = carries q → q = VFind ∨ q = ELoad ∨ q = OKey →
    match acquire t q s with Next s' => inv s' | Stuck => True | Bad => False end.
  Proof.
    intros I Hp Lp Lq H1 H4 H5 H6. unfold acquire. destruct (own s) eqn:Eo; [done|]. pose proof (proj1 I) as B.
    assert (∀ u r, thr s !! u = Some r → locked r = false) as Hfree.
    { intros u r Hr. destruct (locked r) eqn:El; [|done]. pose proof (own_of _ _ _ B Hr El). congruence. }
    set (s' := State _ _ _ _ _ _ _ _). pose proof (knows_upd s' s t (knows s t ∪ mset s) eq_refl) as Hk.
    eapply (inv_pure s s' t (Some q)); try done; rewrite ?Hp; simpl; try congruence.
    - eapply grows_intro; [done|done|set_solver|]. unfold public at 1. rewrite Eo. rewrite (public_own s' t) by done. rewrite Hk, decide_True by done. set_solver.
    - intros u. split.
      + intros [= <-]. exists q. by rewrite lookup_insert.
      + intros (r & Hr & Lr). destruct (decide (u = t)) as [->|Hut]; [done|]. rewrite lookup_insert_ne in Hr by done. by rewrite (Hfree u r Hr) in Lr.
    - intros u [= <-]. rewrite Hk, decide_True by done. set_solver.
    - intros r [= <-] Hr. exfalso. destruct H6 as [->|[->| ->]]; destruct Hr as [?|[?|[?|(x & ?)]]]; done.
  Qed.

  (** a step of the thread that holds the lock *)
  Lemma base_in s s' t p q E : inv s → thr s !! t = Some p → locked p = true → locked q = true → (∀ u, knows s' u = if decide (u = t) then E else knows s u) →
    thr s' = <[t:=q]> (thr s) → knows s t ⊆ E → own s' = own s → mset s' = mset s → objs s' = objs s → nob s' = nob s →
    base s' ∧ grows s s' t (Some q) ∧ public s' = knows s' t ∧ knows s' t = E.
  Proof.
    intros [B _] Hp Lp Lq Hk' Ht HE Eo Em Eb En. pose proof (own_of _ _ _ B Hp Lp) as Ho.
    assert (public s' = E) as Hpub by (rewrite (public_own s' t) by congruence; by rewrite Hk', decide_True).
    assert (knows s' t = E) as Hkt by (by rewrite Hk', decide_True).
    assert (grows s s' t (Some q)) as Gr.
    { eapply grows_intro; [done|done|done|]. rewrite Hpub. by rewrite (public_own s t). }
    split; [|by rewrite Hkt]. eapply base_step; [done|done|..].
    - eapply (own_same s s' t (Some q)); try done. rewrite Hp. simpl. by rewrite Lp, Lq.
    - intros u Hu. rewrite Eo, Ho in Hu. simplify_eq. rewrite Hkt, Em. etrans; [by apply B|done].
    - intros u r x _ _ _. by rewrite Eb.
    - intros r x [= <-] Hx. by destruct q.
    - rewrite En, Eb. apply B.
  Qed.
  Lemma entry_in s s' n n' t p q : base s → entry_ok s n → grows s s' t (Some q) → public s' = knows s' t → thr s !! t = Some p → locked p = true →
    locked q = true → objs s' = objs s →
    cre n' = cre n → val n' = val n ∨ (val n = None ∧ ∃ e, val n' = Some e ∧ e ∈ public s') →
    hist n' = hist n ∨ (val n' ≠ None ∧ cset n ⊆ cset n' ∧ ∃ w, hist n' = w :: hist n ∧ (rc n = 0%Z → w.1.1 ∈ public s')) →
    rc n' = Z.of_nat (msum one (objs s) + msum h_ref (thr s')) →
    (q = VRef ∨ q = Unlock true → is_Some (val n')) →
    evs n' ⊆ evs n ∪ knows s' t → (q = Erase → rc n' = 0%Z ∧ evs n' ⊆ knows s' t) → entry_ok s' n'.
  Proof.
    intros B I Gr Hpub Hp Lp Lq Eb Ecr Ev Eh Hr Hv He Hq. eapply entry_step; try done; rewrite ?Eb.
    - done.
    - intros x w r Hx. destruct (n_obj _ _ I x w r Hx) as [H1 (e & H2 & H3)]. split; [congruence|]. exists e. split; [|done].
      destruct Ev as [|[? _]]; congruence.
    - intros x w r Hx. left. eauto.
    - by destruct q.
    - intros [[= ->]|[= ->]]; auto.
    - intros _ _ e Hin. right; left. by rewrite Hpub.
    - intros Hg. exfalso. by eapply no_gc.
    - intros [= ->]. auto.
  Qed.
  Lemma cre_ok s t p n : inv s → ent s = Some n → thr s !! t = Some p → locked p || carries p = true → cre n ∈ knows s t.
  Proof.
    intros [B I] En Hp Hl. rewrite En in I. destruct (carries p) eqn:Ec; [by eapply (n_thr _ _ I)|].
    rewrite orb_false_r in Hl. rewrite <- (public_own s t); [apply I|by eapply own_of].
  Qed.
  Lemma val_ok s t p n e : inv s → ent s = Some n → val n = Some e → thr s !! t = Some p → locked p || carries p = true → e ∈ knows s t.
  Proof.
    intros [B I] En Ev Hp Hl. rewrite En in I. destruct (carries p) eqn:Ec.
    - destruct (n_thr _ _ I t p Hp Ec) as [_ (e' & H1 & H2)]. congruence.
    - rewrite orb_false_r in Hl. rewrite <- (public_own s t); [by eapply (n_val _ _ I)|by eapply own_of].
  Qed.
  Lemma used_entry s t p : inv s → thr s !! t = Some p → h_use p = 1 → ∃ n, ent s = Some n.
  Proof.
    intros [_ I] Hp Hu. destruct (ent s) as [n|]; [by exists n|]. destruct I as [_ Hz]. pose proof (proj1 (msum_zero _ _) Hz t p Hp). lia.
  Qed.
  Definition ok (r : res) : Prop := match r with Next s => inv s | Stuck => True | Bad => False end.
  Ltac sums t q m Hp := pose proof (msum_move h_ref t q m) as M1; pose proof (msum_move h_use t q m) as M4; rewrite Hp in M1, M4; simpl in M1, M4.

  Definition seen (n : entry) (e : nat) : entry := Entry (cre n) (val n) (evs n ∪ {[e]}) (hist n).
  Lemma access_ok s t p n : inv s → ent s = Some n → thr s !! t = Some p → locked p || carries p = true → access t s = Some (seen n (nxt s), event t s).
  Proof. intros I En Hp Hl. unfold access. rewrite En, bool_decide_true; [done|]. by eapply cre_ok. Qed.
  Lemma look_ok s t p n : inv s → ent s = Some n → thr s !! t = Some p → locked p = true → look t s = Some (set_ent (Some (seen n (nxt s))) (event t s)).
  Proof.
    intros I En Hp Lp. unfold look. rewrite En, (access_ok s t p n) by (done || by rewrite Lp). simpl.
    destruct (val n) as [e|] eqn:Ev; [|done]. rewrite bool_decide_true; [done|]. eapply val_ok; try done. by rewrite Lp.
  Qed.
  Lemma rmw_spec acq rel d s t p n : inv s → ent s = Some n → thr s !! t = Some p → locked p || carries p = true → ∃ E C,
    rmw acq rel d t s = Some (State (own s) (mset s) (Some (Entry (cre n) (val n) (evs n ∪ {[nxt s]}) ((nxt s, rc n + d, C)%Z :: hist n)))
      (objs s) (nob s) (<[t:=E]> (kn s)) (thr s) (S (nxt s))) ∧ knows s t ∪ {[nxt s]} ⊆ E ∧ cset n ⊆ C ∧ (rel = true → E ⊆ C).
  Proof.
    intros I En Hp Hl. unfold rmw. rewrite (access_ok s t p n) by done. simpl.
    assert (hist n ≠ []) as Hh by (destruct I as [_ I]; rewrite En in I; apply I).
    unfold rc, cset. destruct (hist n) as [|[[e0 v] C0] l]; [done|]. simpl.
    exists (if acq then knows s t ∪ {[nxt s]} ∪ C0 else knows s t ∪ {[nxt s]}).
    exists (if rel then C0 ∪ (if acq then knows s t ∪ {[nxt s]} ∪ C0 else knows s t ∪ {[nxt s]}) else C0).
    split; [|destruct acq, rel; set_solver].
    destruct acq; simpl.
    - rewrite knows_learn, decide_True, knows_event_same by done. unfold learn, set_ent. simpl. rewrite insert_insert, knows_event_same. done.
    - rewrite knows_event_same. done.
  Qed.

  (** accesses by the holder of the lock that leave the counter alone *)
  Lemma inv_in s s' t p q E : inv s → thr s !! t = Some p → locked p = true → locked q = true → (∀ u, knows s' u = if decide (u = t) then E else knows s u) →
    thr s' = <[t:=q]> (thr s) → knows s t ⊆ E → own s' = own s → mset s' = mset s → objs s' = objs s → nob s' = nob s →
    h_ref p = h_ref q →
    match ent s with
    | Some n => ∃ n', ent s' = Some n' ∧ cre n' = cre n ∧ (val n' = val n ∨ (val n = None ∧ ∃ e, val n' = Some e ∧ e ∈ E)) ∧ hist n' = hist n ∧
                 evs n' ⊆ evs n ∪ E ∧ (q = VRef ∨ q = Unlock true → is_Some (val n')) ∧ (q = Erase → rc n' = 0%Z ∧ evs n' ⊆ E)
    | None => ent s' = None ∧ h_use q = 0
    end → inv s'.
  Proof.
    intros I Hp Lp Lq Hk Ht HE Eo Em Eb En H1 Hn.
    destruct (base_in s s' t p q E) as (B' & Gr & Hpub & Hkt); try done. split; [done|]. destruct I as [B I].
    sums t (Some q) (thr s) Hp. destruct (ent s) as [n|] eqn:Een.
    - destruct Hn as (n' & -> & E1 & E2 & E3 & E4 & E5 & E6). eapply (entry_in s s' n n' t p q); try done; rewrite ?Hpub, ?Hkt; try done.
      + by left.
      + unfold rc. rewrite E3, Ht. fold (rc n). rewrite (n_ref _ _ I). simpl. lia.
    - destruct Hn as [-> Hq]. rewrite Eb, Ht. destruct I as [I1 I2]. split; [done|]. lia.
  Qed.
  Lemma unlock_false_inv s t : inv s → thr s !! t = Some (Unlock false) → ok (release t s).
  Proof.
    intros I Hp. unfold release, ok. simpl. set (s' := State _ _ _ _ _ _ _ _). pose proof (proj1 I) as B. pose proof (own_of _ _ _ B Hp eq_refl) as Ho.
    eapply (inv_pure s s' t None); try done; rewrite ?Hp; try done.
    - eapply (grows_intro s s' t None (knows s t)); try done.
      + intros u. by case_decide; [subst|].
      + rewrite (public_own s t) by done. unfold public. simpl. set_solver.
    - intros u. split; [done|]. intros (r & Hr & Lr). simpl in Hr. apply lookup_delete_Some in Hr as [Hne Hr].
      by rewrite (own_only _ _ _ _ _ B Hp eq_refl Hr Lr) in Hne.
  Qed.
  Lemma unlock_true_inv s t : inv s → thr s !! t = Some (Unlock true) → ok (release t (add_obj (knows s t) s)).
  Proof.
    intros I Hp. unfold release. simpl. set (s' := State _ _ _ _ _ _ _ _). destruct (used_entry _ _ _ I Hp eq_refl) as [n En].
    pose proof (cre_ok _ _ _ _ I En Hp eq_refl) as Hc. pose proof (λ e H, val_ok _ _ _ _ e I En H Hp eq_refl) as Hv.
    destruct I as [B I]. rewrite En in I. pose proof (own_of _ _ _ B Hp eq_refl) as Ho.
    pose proof (b_nob _ B (nob s) (le_n _)) as Hnew.
    assert (grows s s' t None) as Gr.
    { eapply (grows_intro s s' t None (knows s t)); try done.
      - intros u. by case_decide; [subst|].
      - rewrite (public_own s t) by done. unfold public. simpl. change (knows (go t None (add_obj (knows s t) s)) t) with (knows s t). set_solver. }
    assert (∀ x v, objs s !! x = Some v → objs s' !! x = Some v) as Hob.
    { intros x v Hx. simpl. rewrite lookup_insert_ne; [done|]. intros <-. congruence. }
    sums t (@None pc) (thr s) Hp. simpl. split; simpl.
    - eapply (base_step s s' t None); try done.
      + intros u. split; [done|]. intros (r & Hr & Lr). simpl in Hr. apply lookup_delete_Some in Hr as [Hne Hr].
        by rewrite (own_only _ _ _ _ _ B Hp eq_refl Hr Lr) in Hne.
      + intros u r x _ _ _ [v Hx]. eauto.
      + intros x Hx. simpl in *. rewrite lookup_insert_ne by lia. apply B. lia.
    - rewrite En. eapply (entry_step s s' n n t None); try done.
      + by left.
      + by left.
      + simpl. rewrite msum_new by done. rewrite (n_ref _ _ I). change (one (knows s t, (∅ : gset nat))) with 1. lia.
      + intros x w r Hx. simpl in Hx. apply lookup_insert_Some in Hx as [[<- [= <- <-]]|[_ Hx]]; [|by eapply (n_obj _ _ I)].
        split; [done|]. destruct (n_vref _ _ I t _ Hp) as [e He]; [auto|]. exists e. split; [done|by apply Hv].
      + intros x w r Hx. left. exists w, r. split; [by apply Hob|done].
      + intros []; done.
      + intros _ _ e He. right; left. unfold public. simpl. change (e ∈ mset s ∪ knows s t). by apply elem_of_union_r.
      + set_solver.
  Qed.
  Lemma look_inv s t p : inv s → thr s !! t = Some p → p = OKey ∨ p = VFind ∨ p = VValue → ok (next t (Some (Unlock false)) (look t s)).
  Proof.
    intros I Hp Hq. assert (locked p = true ∧ h_ref p = 0) as [Lp Rp] by (by destruct Hq as [->|[->| ->]]). destruct (ent s) as [n|] eqn:En.
    - rewrite (look_ok s t p n) by done. simpl. eapply (inv_in s _ t p (Unlock false) (knows s t ∪ {[nxt s]})); try done.
      + by apply knows_upd.
      + set_solver.
      + rewrite En. eexists. split; [done|]. simpl. split_and!; try done; [by left|set_solver|by intros []].
    - unfold look. rewrite En. simpl. eapply (inv_in s _ t p (Unlock false) (knows s t)); try done.
      + intros u. by case_decide; [subst|].
      + by rewrite En.
  Qed.
  Lemma find_inv s t : inv s → thr s !! t = Some VFind → ok (next t (Some VValue) (find_or_make t s)).
  Proof.
    intros I Hp. unfold find_or_make. destruct (ent s) as [n|] eqn:En.
    - rewrite (look_ok s t VFind n) by done. simpl. eapply (inv_in s _ t VFind VValue (knows s t ∪ {[nxt s]})); try done.
      + by apply knows_upd.
      + set_solver.
      + rewrite En. eexists. split; [done|]. simpl. split_and!; try done; [by left|set_solver|by intros []].
    - simpl. set (s' := go _ _ _). pose proof I as [B [I1 I2]%(λ x, eq_ind (ent s) (λ o, match o with Some n => _ | None => _ end) x _ En)].
      destruct (base_in s s' t VFind VValue (knows s t ∪ {[nxt s]})) as (B' & Gr & Hpub & Hkt); try done.
      + by apply knows_upd.
      + set_solver.
      + split; [done|]. simpl.
        assert (∀ u p, <[t:=VValue]> (thr s) !! u = Some p → h_use p = 1 → u = t) as Huse.
        { intros u p Hu Hp1. destruct (decide (u = t)) as [|Hut]; [done|]. rewrite lookup_insert_ne in Hu by done.
          pose proof (proj1 (msum_zero _ _) I2 u p Hu). lia. }
        assert (∀ u p, thr s' !! u = Some p → h_use p = 1 → p = VValue) as Huse'.
        { intros u p Hu Hp1. pose proof (Huse u p Hu Hp1) as ->. simpl in Hu. rewrite lookup_insert in Hu. by simplify_eq. }
        split; simpl; rewrite ?I1, ?Hpub, ?Hkt; try done.
        * rewrite (proj2 (msum_zero h_ref _)); [by rewrite msum_empty|]. intros u p Hu. destruct (h_ref p) eqn:E; [done|].
          rewrite (Huse' u p Hu) in E; [done|]. by destruct p as [| | | |[]| | | | | | | | | |].
        * set_solver.
        * intros u p Hu Hc. by rewrite (Huse' u p Hu) in Hc by (by destruct p).
        * intros u p Hu Hc. destruct Hc as [-> | ->]; by specialize (Huse' u _ Hu eq_refl).
        * intros e He. right; left. set_solver.
        * intros u Hu. by specialize (Huse' u _ Hu eq_refl).
  Qed.
  Lemma value_inv s t : inv s → thr s !! t = Some VValue → ok (next t (Some VRef) (make_value t s)).
  Proof.
    intros I Hp. destruct (used_entry _ _ _ I Hp eq_refl) as [n En]. unfold make_value. rewrite (access_ok s t VValue n) by done. simpl.
    assert (∀ n', cre n' = cre n → hist n' = hist n → evs n' = evs n ∪ {[nxt s]} → is_Some (val n') → (val n' = val n ∨ (val n = None ∧ val n' = Some (nxt s))) →
            inv (go t (Some VRef) (set_ent (Some n') (event t s)))) as Hdone.
    { intros n' H1 H2 H3 H4 H5. eapply (inv_in s _ t VValue VRef (knows s t ∪ {[nxt s]})); try done.
      - by apply knows_upd.
      - set_solver.
      - rewrite En. exists n'. split; [done|]. split_and!; try done; [|rewrite H3; set_solver].
        destruct H5 as [|[H5 H6]]; [by left|right]. split; [done|]. exists (nxt s). split; [done|]. set_solver. }
    destruct (val n) as [e|] eqn:Ev.
    - rewrite bool_decide_true by (by eapply val_ok). simpl. apply Hdone; simpl; rewrite ?Ev; eauto.
    - rewrite bool_decide_true; [simpl; apply Hdone; simpl; auto|].
      rewrite knows_event_same. destruct I as [B I]. rewrite En in I.
      assert (evs n ⊆ knows s t); [|set_solver]. intros e He. rewrite <- (public_own s t) by (by eapply (own_of _ _ _ B Hp)).
      destruct (n_evs _ _ I e He) as [Hc|[?|[(x & w & r & Hx & _)|(u & q & Hu & Hq & _)]]]; [|done|..].
      + rewrite (n_none _ _ I Ev) in Hc. set_solver.
      + destruct (n_obj _ _ I x w r Hx) as [_ (e' & He' & _)]. congruence.
      + destruct (n_thr _ _ I u q Hu Hq) as [_ (e' & He' & _)]. congruence.
  Qed.
  Lemma vref_inv s t : inv s → thr s !! t = Some VRef → ok (next t (Some (Unlock true)) (incr inc_sync t s)).
  Proof.
    intros I Hp. destruct (used_entry _ _ _ I Hp eq_refl) as [n En]. unfold incr.
    destruct (rmw_spec inc_sync inc_sync 1 s t VRef n I En Hp eq_refl) as (E & C & -> & HE & HC & _). simpl. set (s' := go _ _ _).
    destruct (base_in s s' t VRef (Unlock true) E) as (B' & Gr & Hpub & Hkt); try done. { by apply knows_upd. } { set_solver. }
    split; [done|]. simpl. destruct I as [B I]. rewrite En in I. sums t (Some (Unlock true)) (thr s) Hp.
    pose proof (n_vref _ _ I t _ Hp) as Hv. destruct Hv as [e Hv]; [auto|].
    eapply (entry_in s s' n _ t VRef (Unlock true)); try done; simpl.
    - by left.
    - right. split; [congruence|]. split; [done|]. eexists. split; [done|]. intros _. simpl. rewrite Hpub, Hkt. set_solver.
    - rewrite (n_ref _ _ I). cbn. lia.
    - rewrite Hkt. set_solver.
  Qed.
  Lemma load_inv s t i : inv s → thr s !! t = Some ELoad →
    ok (match ent s with
        | None => Next (go t (Some (Unlock false)) s)
        | Some _ =>
            match load true t i s with
            | None => Bad
            | Some None => Stuck
            | Some (Some (v, s)) => Next (go t (Some (if (v =? 0)%Z then Erase else Unlock false)) s)
            end
        end).
  Proof.
    intros I Hp. destruct (ent s) as [n|] eqn:En.
    2:{ simpl. eapply (inv_in s _ t ELoad (Unlock false) (knows s t)); try done; [intros u; by case_decide; [subst|]|by rewrite En]. }
    unfold load. rewrite (access_ok s t ELoad n) by done. simpl. destruct (hist n !! i) as [[[e v] C]|] eqn:Ei; [|done].
    destruct (forallb _ _) eqn:Ef; [|done]. set (q := if (v =? 0)%Z then Erase else Unlock false). simpl.
    eapply (inv_in s _ t ELoad q (knows s t ∪ {[nxt s]} ∪ C)); try done.
    - unfold q. by destruct (_ =? _)%Z.
    - apply knows_upd. simpl. by rewrite knows_event_same, insert_insert.
    - set_solver.
    - unfold q. by destruct (_ =? _)%Z.
    - rewrite En. eexists. split; [done|]. simpl. split_and!; try done.
      + by left.
      + set_solver.
      + intros Hq. unfold q in Hq. destruct (_ =? _)%Z; by destruct Hq.
      + intros Hq. unfold q in Hq. destruct (Z.eqb_spec v 0) as [->|]; [|done]. clear Hq q.
        destruct I as [B I]. rewrite En in I. pose proof (own_of _ _ _ B Hp eq_refl) as Ho.
        (* the zero read is the newest value *)
        assert (i = 0) as ->.
        { destruct i as [|i]; [done|]. exfalso. destruct (hist n !! i) as [w|] eqn:Ew.
          - pose proof (n_old _ _ I i w _ Ew Ei eq_refl) as Hin. rewrite (public_own s t) in Hin by done.
            rewrite forallb_forall in Ef. specialize (Ef w). rewrite bool_decide_eq_true in Ef. apply Ef; [|done].
            apply elem_of_list_In. apply (elem_of_list_lookup_2 _ i). rewrite lookup_take by lia. done.
          - apply lookup_ge_None in Ew. apply lookup_lt_Some in Ei. lia. }
        assert (rc n = 0%Z ∧ cset n = C) as [Hrc Hcs] by (unfold rc, cset; destruct (hist n); simpl in *; by simplify_eq).
        split; [done|]. pose proof (n_ref _ _ I) as Hr.
        assert (evs n ⊆ knows s t ∪ C); [|set_solver]. intros e' He.
        destruct (n_evs _ _ I e' He) as [?|[Hpub|[(x & w & r & Hx & _)|(u & p & Hu & Hpc & _)]]].
        * apply elem_of_union_r. congruence.
        * rewrite (public_own s t) in Hpub by done. by apply elem_of_union_l.
        * pose proof (msum_ge one (objs s) x _ Hx) as Hge. change (one (w, r)) with 1 in Hge. lia.
        * exfalso. destruct p as [| | | |b|x|x|x|x| | | | | |]; try done.
          -- destruct (b_use _ B u _ x Hu) as [v Hv]; [by apply bool_decide_eq_true|]. pose proof (msum_ge one (objs s) x _ Hv) as Hge. change (one v) with 1 in Hge. lia.
          -- destruct (b_use _ B u _ x Hu) as [v Hv]; [by apply bool_decide_eq_true|]. pose proof (msum_ge one (objs s) x _ Hv) as Hge. change (one v) with 1 in Hge. lia.
          -- destruct (b_use _ B u _ x Hu) as [v Hv]; [by apply bool_decide_eq_true|]. pose proof (msum_ge one (objs s) x _ Hv) as Hge. change (one v) with 1 in Hge. lia.
          -- destruct (b_use _ B u _ x Hu) as [v Hv]; [by apply bool_decide_eq_true|]. pose proof (msum_ge one (objs s) x _ Hv) as Hge. change (one v) with 1 in Hge. lia.
          -- pose proof (msum_ge h_ref (thr s) u _ Hu) as Hge. simpl in Hge. lia.
  Qed.
  (** nobody has the entry while it is being erased *)
  Lemma erase_alone s t n : inv s → thr s !! t = Some Erase → ent s = Some n →
    objs s = ∅ ∧ ∀ u q, thr s !! u = Some q → h_use q = 1 → u = t.
  Proof.
    intros [B I] Hp En. rewrite En in I. destruct (n_gc _ _ I t Hp) as [Hz _]. pose proof (n_ref _ _ I) as Hr.
    assert (objs s = ∅) as Hob.
    { apply map_eq. intros x. rewrite lookup_empty. destruct (objs s !! x) as [v|] eqn:E; [|done]. pose proof (msum_ge one (objs s) x v E) as Hge.
      change (one v) with 1 in Hge. lia. }
    split; [done|]. intros u q Hu Hq. destruct (decide (u = t)) as [|Hut]; [done|]. exfalso. destruct (locked q) eqn:Lq; [by apply Hut; eapply (own_only _ _ _ _ _ B Hp)|].
    assert (∀ x, uses x q = true → False) as Hno. { intros x Hx. destruct (b_use _ B u _ x Hu Hx) as [v Hv]. by rewrite Hob in Hv. }
    destruct q as [| | | |b|x|x|x|x| | | | | |]; try done; try (apply (Hno x); by apply bool_decide_eq_true).
    pose proof (msum_ge h_ref (thr s) u _ Hu) as Hge. simpl in Hge. lia.
  Qed.
  Lemma erase_inv s t : inv s → thr s !! t = Some Erase → ok (next t (Some (Unlock false)) (destroy t s)).
  Proof.
    intros I Hp. destruct (used_entry _ _ _ I Hp eq_refl) as [n En]. destruct (erase_alone s t n I Hp En) as [Hob Honly].
    unfold destroy. rewrite En. destruct (n_gc s n) with (t := t) as [_ Hevs]; [destruct I as [_ I]; by rewrite En in I|done|].
    rewrite bool_decide_true by done. simpl. set (s' := go _ _ _).
    destruct (base_in s s' t Erase (Unlock false) (knows s t)) as (B' & Gr & Hpub & Hkt); try done. { intros u. by case_decide; [subst|]. }
    split; [done|]. simpl. split; [done|]. apply msum_zero. intros u q Hu. destruct (decide (u = t)) as [->|Hut].
    - rewrite lookup_insert in Hu. by simplify_eq.
    - rewrite lookup_insert_ne in Hu by done. destruct (h_use q) as [|k] eqn:E; [done|]. exfalso. apply Hut. eapply Honly; [done|].
      destruct q as [| | | |[]| | | | | | | | | |]; simpl in *; lia.
  Qed.

  (** a step of a thread that does not hold the lock *)
  Lemma base_out s s' t q E : inv s → onO false locked (thr s !! t) = false → onO false locked q = false → kn s' = <[t:=E]> (kn s) →
    thr s' = move t q (thr s) → knows s t ⊆ E → own s' = own s → mset s' = mset s →
    (∀ u p x, thr s !! u = Some p → u ≠ t → uses x p = true → is_Some (objs s !! x) → is_Some (objs s' !! x)) →
    (∀ p x, q = Some p → uses x p = true → is_Some (objs s' !! x)) →
    (∀ x, nob s' ≤ x → objs s' !! x = None) → base s' ∧ grows s s' t q ∧ knows s' t = E.
  Proof.
    intros [B _] Lp Lq Hk Ht HE Eo Em Hu Hq Hn. pose proof (knows_upd _ _ _ _ Hk) as Hk'.
    assert (grows s s' t q) as Gr.
    { eapply grows_intro; [done|done|done|]. apply public_same; [done|by rewrite Em|]. intros u. rewrite Hk'. by case_decide; [subst|]. }
    split; [|split; [done|by rewrite Hk', decide_True]]. eapply base_step; try done.
    - eapply (own_same s s' t q); try done. by rewrite Lp, Lq.
    - intros u Hou. rewrite Em. rewrite Eo in Hou. etrans; [by apply B|]. by eapply grows_knows.
  Qed.
  Lemma used_eq x E s w r : objs s !! x = Some (w, r) → used x E s = set_objs (<[x:=(w, r ∪ E)]> (objs s)) s.
  Proof. unfold used. by intros ->. Qed.
  Lemma has_object s n x v : entry_ok s n → objs s !! x = Some v → (0 < rc n)%Z.
  Proof. intros I Hx. pose proof (msum_ge one (objs s) x v Hx) as Hge. change (one v) with 1 in Hge. rewrite (n_ref _ _ I). lia. Qed.
  Lemma has_ref s n t p : entry_ok s n → thr s !! t = Some p → h_ref p = 1 → (0 < rc n)%Z.
  Proof. intros I Hx Hr. pose proof (msum_ge h_ref (thr s) t p Hx) as Hge. rewrite (n_ref _ _ I). lia. Qed.

  (** a read-modify-write by a thread that holds a handle, or uses a flyweight that does *)
  Lemma carrier_inv s t p q acq rel d x : inv s → thr s !! t = Some p → carries p = true →
    (p = KRef x ∨ p = GInc x ∨ p = GDec x ∨ (p = DRef ∧ rel = true)) →
    (∃ q', q = Some q' ∧ carries q' = true ∧ uses x p = true ∧ (∀ y, uses y q' = true → y = x)) ∨ (q = None ∧ rel = true) →
    (Z.of_nat (onO 0%nat h_ref q) = Z.of_nat (h_ref p) + d)%Z →
    ok (next t q (rmw acq rel d t s)).
  Proof.
    intros I Hp Hc Hpx Hq Hd. assert (locked p = false ∧ h_use p = 1) as [Lp Up] by (by destruct p).
    destruct (used_entry _ _ _ I Hp Up) as [n En].
    destruct (rmw_spec acq rel d s t p n I En Hp) as (E & C & -> & HE & HC & HR); [by rewrite Hc, orb_true_r|]. simpl. set (s' := go _ _ _).
    assert (is_Some (objs s !! x) ∨ h_ref p = 1) as Hcnt.
    { destruct Hpx as [->|[->|[->|[-> _]]]]; auto; left; eapply (b_use _ (proj1 I) t); try done; by apply bool_decide_eq_true. }
    destruct (base_out s s' t q E) as (B' & Gr & Hkt); try done.
    { rewrite Hp. done. } { destruct Hq as [(q' & -> & Hq' & _)|[-> _]]; [by destruct q'|done]. } { set_solver. }
    { intros r y Hr Hy. simpl. destruct Hq as [(q' & -> & Hq' & Hux & Hq2)|[-> _]]; [|done]. simplify_eq. rewrite (Hq2 y Hy). by eapply (b_use _ (proj1 I) t). }
    { apply I. }
    pose proof (cre_ok _ _ _ _ I En Hp) as Hcre. rewrite Hc, orb_true_r in Hcre. specialize (Hcre eq_refl).
    pose proof (λ e H, val_ok _ _ _ _ e I En H Hp) as Hval. rewrite Hc, orb_true_r in Hval.
    split; [done|]. destruct I as [B I]. rewrite En in I. sums t q (thr s) Hp. simpl ent. cbv iota beta.
    destruct (n_thr _ _ I t p Hp Hc) as [_ (ev & Ev & Hev)].
    assert (0 < rc n)%Z as Hpos. { destruct Hcnt as [[v Hv]|Hr]; [by eapply has_object|by eapply has_ref]. }
    assert (thr s' = move t q (thr s)) as Et by apply Gr.
    eapply (entry_step s s' n _ t q); try done; rewrite ?Et.
    - by left.
    - right. simpl. split; [congruence|]. split; [done|]. eexists. split; [done|]. lia.
    - unfold rc at 1. simpl. rewrite (n_ref _ _ I). lia.
    - intros y w r Hy. destruct (n_obj _ _ I y w r Hy) as [? ?]. done.
    - intros y w r Hy. left. eauto.
    - intros _. rewrite Hkt. split; [simpl; set_solver|]. exists ev. split; [done|set_solver].
    - intros Hcq _ e He. destruct Hq as [(q' & -> & Hq' & _)|[-> Hrel]]; [simpl in Hcq; congruence|].
      left. simpl. rewrite Hkt in He. by apply HR.
    - simpl. rewrite Hkt. set_solver.
    - intros Hg. exfalso. eapply no_gc_count; [done| |done]. lia.
    - intros ->. destruct Hq as [(q' & [= <-] & ? & _)|[? _]]; done.
  Qed.
  Lemma kref_inv s t x : inv s → thr s !! t = Some (KRef x) →
    ok (match incr inc_sync t s with Some s => Next (go t None (used x (knows s t) (add_obj (knows s t) s))) | None => Bad end).
  Proof.
    intros I Hp. destruct (used_entry _ _ _ I Hp eq_refl) as [n En]. unfold incr.
    destruct (rmw_spec inc_sync inc_sync 1 s t _ n I En Hp eq_refl) as (E & C & -> & HE & HC & _).
    destruct (b_use _ (proj1 I) t _ x Hp) as [[w r] Hx]; [by apply bool_decide_eq_true|].
    rewrite (knows_upd _ s t E), decide_True by done. pose proof (b_nob _ (proj1 I) (nob s) (le_n _)) as Hnew.
    assert (x ≠ nob s) as Hxn by congruence.
    rewrite (used_eq _ _ _ w r) by (simpl; by rewrite lookup_insert_ne). unfold ok. set (s' := go _ _ _).
    assert (∀ y, y ≠ x → y ≠ nob s → objs s' !! y = objs s !! y) as Hoth.
    { intros y H1 H2. simpl. by rewrite !lookup_insert_ne. }
    assert (objs s' !! x = Some (w, r ∪ E)) as Hx' by (simpl; by rewrite lookup_insert).
    assert (objs s' !! nob s = Some (E, ∅)) as Hn' by (simpl; by rewrite lookup_insert_ne, lookup_insert).
    destruct (base_out s s' t None E) as (B' & Gr & Hkt); try done.
    { by rewrite Hp. } { set_solver. }
    { intros u p y _ _ _ Hy. destruct (decide (y = x)) as [->|]; [eauto|]. destruct (decide (y = nob s)) as [->|]; [eauto|]. by rewrite Hoth. }
    { intros y Hy. simpl in Hy. rewrite Hoth; [apply I; lia| |lia]. intros ->. rewrite (b_nob _ (proj1 I)) in Hx by lia. done. }
    pose proof (cre_ok _ _ _ _ I En Hp eq_refl) as Hcre.
    split; [done|]. destruct I as [B I]. rewrite En in I. sums t (@None pc) (thr s) Hp. simpl ent. cbv iota beta.
    pose proof (has_object _ _ _ _ I Hx) as Hpos. destruct (n_thr _ _ I t _ Hp eq_refl) as [_ (ev & Ev & Hev)].
    eapply (entry_step s s' n _ t None); try done; simpl.
    - by left.
    - right. split; [congruence|]. split; [done|]. eexists. split; [done|]. lia.
    - assert (<[nob s:=(E, ∅)]> (objs s) !! x = Some (w, r)) as Hx2 by (by rewrite lookup_insert_ne by congruence).
      pose proof (msum_upd one _ x (w, r) (w, r ∪ E) Hx2) as M. rewrite (msum_new one (objs s) (nob s)) in M by done.
      change (one (w, r)) with 1 in M. change (one (E, (∅ : gset nat))) with 1 in M. change (one (w, r ∪ E)) with 1 in M.
      unfold rc at 1. simpl. rewrite (n_ref _ _ I). lia.
    - intros y w' r' Hy. apply lookup_insert_Some in Hy as [[<- [= <- <-]]|[_ Hy]]; [apply (n_obj _ _ I x w r Hx)|].
      apply lookup_insert_Some in Hy as [[<- [= <- <-]]|[_ Hy]]; [|apply (n_obj _ _ I y w' r' Hy)].
      split; [simpl; set_solver|]. exists ev. split; [done|set_solver].
    - intros y w' r' Hy. left. destruct (decide (y = x)) as [->|Hxy].
      + rewrite Hx in Hy. simplify_eq. rewrite lookup_insert. eexists _, _. split; [done|]. set_solver.
      + assert (y ≠ nob s) by congruence. rewrite !lookup_insert_ne by done. eauto.
    - intros _ _ e He. right; right. exists (nob s), E, ∅. split; [done|]. left. by rewrite <- Hkt.
    - rewrite Hkt. set_solver.
    - intros Hg. exfalso. eapply no_gc_count; [done| |done]. lia.
  Qed.
  Lemma gread_inv s t x : inv s → thr s !! t = Some (GRead x) →
    ok (match read_value t s with Some s => Next (go t None (used x (knows s t) s)) | None => Bad end).
  Proof.
    intros I Hp. destruct (used_entry _ _ _ I Hp eq_refl) as [n En]. unfold read_value.
    rewrite (access_ok s t _ n I En Hp eq_refl). assert (∃ ev, val n = Some ev ∧ ev ∈ knows s t) as (ev & Ev & Hev).
    { destruct I as [B I]. rewrite En in I. by destruct (n_thr _ _ I t _ Hp eq_refl). }
    simpl. rewrite Ev, bool_decide_true by done. change (knows (set_ent (Some (seen n (nxt s))) (event t s)) t) with (knows (event t s) t).
    rewrite knows_event_same.
    destruct (b_use _ (proj1 I) t _ x Hp) as [[w r] Hx]; [by apply bool_decide_eq_true|].
    rewrite (used_eq _ _ _ w r) by done. unfold ok. set (s' := go _ _ _).
    destruct (base_out s s' t None (knows s t ∪ {[nxt s]})) as (B' & Gr & Hkt); try done.
    { by rewrite Hp. } { set_solver. }
    { intros u p y _ _ _ Hy. simpl. destruct (decide (x = y)) as [->|]; [rewrite lookup_insert; eauto|by rewrite lookup_insert_ne]. }
    { intros y Hy. simpl in *. rewrite lookup_insert_ne; [by apply I|]. intros <-. rewrite (b_nob _ (proj1 I)) in Hx by done. done. }
    split; [done|]. destruct I as [B I]. rewrite En in I. sums t (@None pc) (thr s) Hp. simpl ent. cbv iota beta.
    pose proof (has_object _ _ _ _ I Hx) as Hpos.
    eapply (entry_step s s' n _ t None); try done; simpl.
    - by left.
    - by left.
    - pose proof (msum_upd one (objs s) x (w, r) (w, r ∪ (knows s t ∪ {[nxt s]})) Hx) as M. change (one (w, r)) with 1 in M.
      change (one (w, r ∪ (knows s t ∪ {[nxt s]}))) with 1 in M. unfold rc. simpl. fold (rc n). rewrite (n_ref _ _ I). lia.
    - intros y w' r' Hy. apply lookup_insert_Some in Hy as [[<- [= <- <-]]|[_ Hy]]; [apply (n_obj _ _ I x w r Hx)|apply (n_obj _ _ I y w' r' Hy)].
    - intros y w' r' Hy. left. destruct (decide (x = y)) as [->|Hxy].
      + rewrite Hx in Hy. simplify_eq. rewrite lookup_insert. eexists _, _. split; [done|]. set_solver.
      + rewrite lookup_insert_ne by done. eauto.
    - intros _ _ e He. right; right. exists x, w, (r ∪ (knows s t ∪ {[nxt s]})). simpl. rewrite lookup_insert. split; [done|]. rewrite Hkt in He. set_solver.
    - rewrite Hkt. set_solver.
    - intros Hg. exfalso. eapply no_gc_count; [done| |done]. lia.
  Qed.

  Lemma start_inv s t q : inv s → thr s !! t = None → q = VLock ∨ q = OLock ∨ q = ELock → inv (go t (Some q) s).
  Proof.
    intros I Hp Hq. eapply (inv_pure s _ t (Some q)); rewrite ?Hp; try done; try (by destruct Hq as [->|[->| ->]]).
    - eapply (own_same s _ t (Some q)); try done; [apply I|]. rewrite Hp. by destruct Hq as [->|[->| ->]].
    - apply I.
    - intros p [= <-] Hx. exfalso. destruct Hq as [->|[->| ->]]; destruct Hx as [?|[?|[?|(x & ?)]]]; done.
  Qed.
  Lemma use_inv s t x q w r : inv s → thr s !! t = None → objs s !! x = Some (w, r) → q = KRef x ∨ q = GInc x → inv (go t (Some q) (learn t w s)).
  Proof.
    intros I Hp Hx Hq. set (s' := go _ _ _).
    destruct (base_out s s' t (Some q) (knows s t ∪ w)) as (B' & Gr & Hkt); try done.
    { by rewrite Hp. } { by destruct Hq as [-> | ->]. } { set_solver. }
    { intros p y [= <-] Hy. simpl. destruct Hq as [-> | ->]; simpl in Hy; apply bool_decide_eq_true in Hy as ->; eauto. }
    { apply I. }
    split; [done|]. destruct I as [B I]. simpl.
    destruct (ent s) as [n|] eqn:En; [|destruct I as [I _]; by rewrite I in Hx]. sums t (Some q) (thr s) Hp.
    eapply (entry_step s s' n n t (Some q)); try done; simpl.
    - by left.
    - by left.
    - rewrite (n_ref _ _ I). assert (h_ref q = 0) by (by destruct Hq as [-> | ->]). lia.
    - apply I.
    - intros y w' r' Hy. left. eauto.
    - intros _. rewrite Hkt. eapply made_mono; [by eapply (n_obj _ _ I)|set_solver].
    - destruct Hq as [-> | ->]; intros []; done.
    - by destruct Hq as [-> | ->].
    - set_solver.
    - destruct Hq as [-> | ->]; done.
  Qed.
  Lemma destroy_inv s t x w r : inv s → thr s !! t = None → objs s !! x = Some (w, r) → ¬ map_Exists (λ _ p, uses x p = true) (thr s) →
    inv (go t (Some DRef) (set_objs (delete x (objs s)) (learn t (w ∪ r) s))).
  Proof.
    intros I Hp Hx Hno. set (s' := go _ _ _).
    destruct (base_out s s' t (Some DRef) (knows s t ∪ (w ∪ r))) as (B' & Gr & Hkt); try done.
    { by rewrite Hp. } { set_solver. }
    { intros u p y Hu _ Hy His. simpl. rewrite lookup_delete_ne; [done|]. intros <-. apply Hno. exists u, p. done. }
    { intros p y [= <-] Hy. done. }
    { intros y Hy. simpl. apply lookup_delete_None. right. by apply I. }
    split; [done|]. destruct I as [B I]. simpl.
    destruct (ent s) as [n|] eqn:En; [|destruct I as [I _]; by rewrite I in Hx]. sums t (Some DRef) (thr s) Hp.
    eapply (entry_step s s' n n t (Some DRef)); try done; simpl.
    - by left.
    - by left.
    - rewrite (n_ref _ _ I). pose proof (msum_delete one (objs s) x (w, r) Hx) as M. change (one (w, r)) with 1 in M. lia.
    - intros y w' r' Hy. apply lookup_delete_Some in Hy as [_ Hy]. by eapply (n_obj _ _ I).
    - intros y w' r' Hy. destruct (decide (y = x)) as [->|Hyx].
      + rewrite Hx in Hy. simplify_eq. right. split; [|done]. rewrite Hkt. set_solver.
      + left. rewrite lookup_delete_ne by done. eauto.
    - intros _. rewrite Hkt. eapply made_mono; [by eapply (n_obj _ _ I)|set_solver].
    - intros []; done.
    - set_solver.
  Qed.
  Lemma sync_inv s t E : inv s → inv (learn t E s).
  Proof.
    intros I. assert (thr s = move t (thr s !! t) (thr s)) as Et.
    { apply map_eq. intros u. rewrite move_lookup. by case_decide; [subst|]. }
    assert (grows s (learn t E s) t (thr s !! t)) as Gr.
    { eapply (grows_intro s _ t _ (knows s t ∪ E)); [by apply knows_upd|done|set_solver|].
      apply public_same; [done|done|]. intros u. rewrite knows_learn. case_decide; [subst; set_solver|done]. }
    eapply (inv_pure s _ t (thr s !! t)); try done.
    - apply I.
    - intros u Hu. simpl in *. etrans; [by apply I|]. by eapply grows_knows.
  Qed.
  Lemma step_inv s l : inv s → ok (step s l).
  Proof.
    intros I. destruct l as [t o|t i b|t u]; simpl; [| |by apply sync_inv].
    - unfold begin. destruct (thr s !! t) eqn:Hp; [done|]. destruct o as [|x|x|x| |]; simpl.
      + apply start_inv; auto.
      + destruct (objs s !! x) as [[w r]|] eqn:Hx; [|done]. eapply use_inv; eauto.
      + destruct (objs s !! x) as [[w r]|] eqn:Hx; [|done]. eapply use_inv; eauto.
      + destruct (objs s !! x) as [[w r]|] eqn:Hx; [|done]. case_bool_decide; [done|]. by apply destroy_inv.
      + apply start_inv; auto.
      + apply start_inv; auto.
    - unfold step_thread. destruct (thr s !! t) as [p|] eqn:Hp; [|done]. destruct p as [| | | |c|x|x|x|x| | | | | |].
      + eapply acquire_inv; try done. auto.
      + destruct b; [eapply look_inv; eauto|by apply find_inv].
      + destruct b; [eapply look_inv; eauto|by apply value_inv].
      + by apply vref_inv.
      + destruct c; [by apply unlock_true_inv|by apply unlock_false_inv].
      + by apply kref_inv.
      + apply (carrier_inv s t (GInc x) _ _ _ _ x); try done; [auto|]. left. exists (GDec x). split_and!; try done; [by apply bool_decide_eq_true|].
        intros y Hy. by apply bool_decide_eq_true in Hy.
      + apply (carrier_inv s t (GDec x) _ _ _ _ x); try done; [auto|]. left. exists (GRead x). split_and!; try done; [by apply bool_decide_eq_true|].
        intros y Hy. by apply bool_decide_eq_true in Hy.
      + by apply gread_inv.
      + apply (carrier_inv s t DRef _ _ _ _ 0); try done; [auto 10|]. by right.
      + eapply acquire_inv; try done. auto.
      + by apply load_inv.
      + by apply erase_inv.
      + eapply acquire_inv; try done. auto.
      + eapply look_inv; eauto.
  Qed.
  Lemma inv_init : inv init.
  Proof. split; [|done]. split; try done. intros t. split; [done|]. by intros (p & Hp & _). Qed.
  Lemma run_inv s ls : inv s → ok (run s ls).
  Proof.
    revert s. induction ls as [|l ls IH]; intros s I; simpl; [done|]. pose proof (step_inv s l I) as Hs.
    destruct (step s l); [by apply IH|by apply IH|done].
  Qed.
  Lemma reach_inv s : reachable s → inv s.
  Proof. intros [ls H]. pose proof (run_inv init ls inv_init) as I. by rewrite H in I. Qed.
End proofs.

(** C58: if decrements release and the collector's load acquires, whatever
    else the operations on the counter do, no two conflicting accesses are
    unordered and entries are destroyed after every access to them. *)
Theorem C58_no_race inc_sync dec_acq ls : run inc_sync true dec_acq true init ls ≠ Bad.
Proof. intros H. pose proof (run_inv inc_sync dec_acq init ls inv_init) as I. by rewrite H in I. Qed.

(** whoever erases the entry comes after everything done with it *)
Theorem C58_erased_last inc_sync dec_acq s t n e : reachable inc_sync dec_acq s → thr s !! t = Some Erase → ent s = Some n → e ∈ evs n → e ∈ knows s t.
Proof. intros [_ I]%reach_inv Hp En He. rewrite En in I. by apply (n_gc _ _ I t Hp). Qed.
(** entries go only when they are erased *)
Theorem C58_erased inc_sync dec_acq s t i b s' : reachable inc_sync dec_acq s → step inc_sync true dec_acq true s (LStep t i b) = Next s' →
  is_Some (ent s) → ent s' = None → thr s !! t = Some Erase.
Proof.
  intros I%reach_inv Hs [n En] En'. simpl in Hs. unfold step_thread in Hs. destruct (thr s !! t) as [p|] eqn:Hp; [|done].
  assert (∀ acq rel d q s1, next t q (rmw acq rel d t s) = Next s1 → ent s1 ≠ None) as Hrmw.
  { intros acq rel d q s1. unfold rmw, access. rewrite En. destruct (bool_decide _); [|done]. simpl. destruct (hist n) as [|[[]]]; [done|].
    simpl. intros. by simplify_eq/=. }
  assert (∀ q s1, next t q (look t s) = Next s1 → ent s1 ≠ None) as Hlook.
  { intros q s1. unfold look, access. rewrite En. destruct (bool_decide _); [|done]. simpl.
    destruct (val n); [destruct (bool_decide _); [|done]|]; intros; by simplify_eq/=. }
  destruct p as [| | | |c|x|x|x|x| | | | | |]; try done.
  - unfold acquire in Hs. destruct (own s); [done|]. simplify_eq/=; congruence.
  - destruct b; [by eapply Hlook in Hs|]. unfold find_or_make in Hs. rewrite En in Hs. by eapply Hlook in Hs.
  - destruct b; [by eapply Hlook in Hs|]. unfold make_value, access in Hs. rewrite En in Hs. destruct (bool_decide _); [|done]. simpl in Hs.
    destruct (val n); destruct (bool_decide _); by simplify_eq/=.
  - by eapply Hrmw in Hs.
  - unfold release in Hs. destruct c; simplify_eq/=; congruence.
  - unfold incr, rmw, access in Hs. rewrite En in Hs. destruct (bool_decide _); [|done]. simpl in Hs. destruct (hist n) as [|[[]]]; [done|].
    simplify_eq/=. unfold used in En'. simpl in En'. destruct (_ !! x) as [[]|] in En'; done.
  - by eapply Hrmw in Hs.
  - by eapply Hrmw in Hs.
  - unfold read_value, access in Hs. rewrite En in Hs. destruct (bool_decide _); [|done]. simpl in Hs. destruct (val n); [|done].
    destruct (bool_decide _); [|done]. simplify_eq/=. unfold used in En'. simpl in En'. destruct (_ !! x) as [[]|] in En'; done.
  - by eapply Hrmw in Hs.
  - unfold acquire in Hs. destruct (own s); [done|]. simplify_eq/=; congruence.
  - rewrite En in Hs. unfold load, access in Hs. rewrite En in Hs. destruct (bool_decide _); [|done]. simpl in Hs.
    destruct (hist n !! i) as [[[] ?]|]; [|done]. destruct (forallb _ _); [|done]. by simplify_eq/=.
  - unfold acquire in Hs. destruct (own s); [done|]. simplify_eq/=; congruence.
  - by eapply Hlook in Hs.
Qed.
(** a load may return an old value, but zero only if nobody has the entry *)
Theorem C58_zero inc_sync dec_acq s t : reachable inc_sync dec_acq s → thr s !! t = Some Erase →
  objs s = ∅ ∧ ∀ u p, thr s !! u = Some p → u ≠ t → (∀ x, p ≠ KRef x ∧ p ≠ GInc x ∧ p ≠ GDec x ∧ p ≠ GRead x) ∧ p ≠ DRef ∧ p ≠ VRef ∧ p ≠ VValue ∧ p ≠ Unlock true.
Proof.
  intros I%reach_inv Hp. destruct (used_entry _ _ _ I Hp eq_refl) as [n En]. destruct (erase_alone s t n I Hp En) as [Hob Honly].
  split; [done|]. intros u p Hu Hut. assert (h_use p ≠ 1) as Hn by (intros H; apply Hut; by eapply Honly).
  destruct p as [| | | |[]| | | | | | | | | |]; simpl in Hn; split_and!; done.
Qed.
(** while there is a flyweight, there is its entry, with its value *)
Theorem C58_kept inc_sync dec_acq s x w r : reachable inc_sync dec_acq s → objs s !! x = Some (w, r) →
  ∃ n e, ent s = Some n ∧ val n = Some e ∧ cre n ∈ w ∧ e ∈ w.
Proof.
  intros [_ I]%reach_inv Hx. destruct (ent s) as [n|]; [|destruct I as [I _]; by rewrite I in Hx].
  destruct (n_obj _ _ I x w r Hx) as [H1 (e & H2 & H3)]. by exists n, e.
Qed.
(** a thread that reads the value knows its construction *)
Theorem C58_constructed_first inc_sync dec_acq s t x : reachable inc_sync dec_acq s → thr s !! t = Some (GRead x) →
  ∃ n e, ent s = Some n ∧ val n = Some e ∧ cre n ∈ knows s t ∧ e ∈ knows s t.
Proof.
  intros I%reach_inv Hp. destruct (used_entry _ _ _ I Hp eq_refl) as [n En]. destruct I as [_ I]. rewrite En in I.
  destruct (n_thr _ _ I t _ Hp eq_refl) as [H1 (e & H2 & H3)]. by exists n, e.
Qed.

(** Thread 0 makes a flyweight, thread 1 is told, copies, reads and destroys
    its copy, 0 destroys its own; the collector, thread 2, comes before and
    after the last destruction. *)
Definition steps (t k : nat) : list label := replicate k (LStep t 0 false).
Definition shared : list label :=
  [LStart 0 ONew] ++ steps 0 5 ++ [LSync 0 1; LStart 1 (OCopy 0)] ++ steps 1 1 ++ [LStart 1 (OGet 1)] ++ steps 1 3 ++
  [LStart 2 OCollect] ++ steps 2 3 ++ [LStart 1 (ODestroy 1)] ++ steps 1 1 ++ [LStart 0 (ODestroy 0)] ++ steps 0 1.
Definition collect : list label := [LStart 2 OCollect] ++ steps 2 3.
Definition counts (r : res) : list Z := match r with Next s => match ent s with Some n => (λ w, w.1.2) <$> hist n | None => [] end | _ => [] end.
Definition pc_of (t : nat) (r : res) : option pc := match r with Next s => thr s !! t | _ => None end.
Definition ended (r : res) : bool := match r with Next s => bool_decide (ent s = None) && bool_decide (dom (thr s) = ∅) && bool_decide (objs s = ∅) | _ => false end.
Example C58_shared : let r := run false true false true init shared in
  counts r = [0; 1; 2; 3; 2; 1; 0]%Z ∧ pc_of 2 (run false true false true init (shared ++ [LStart 2 OCollect] ++ steps 2 2)) = Some Erase ∧
  ended (run false true false true init (shared ++ collect ++ steps 2 1)) = true.
Proof. vm_compute. split_and!; reflexivity. Qed.
(** what the collector may read: it has read the third newest value before *)
Definition after_load (i : nat) : option pc := pc_of 2 (run false true false true init (shared ++ [LStart 2 OCollect] ++ steps 2 1 ++ [LStep 2 i false])).
Example C58_stale : after_load <$> seq 0 8 =
  [Some Erase; Some (Unlock false); Some (Unlock false); Some ELoad; Some ELoad; Some ELoad; Some ELoad; Some ELoad].
Proof. vm_compute. reflexivity. Qed.
(** With decrements that do not release, or a load that does not acquire, the
    collector may destroy an entry that is still being used. *)
Theorem C58_release_refuted inc_sync dec_acq : ∃ ls, run inc_sync false dec_acq true init ls = Bad.
Proof. exists (shared ++ collect). destruct inc_sync, dec_acq; vm_compute; reflexivity. Qed.
Theorem C58_acquire_refuted inc_sync dec_acq : ∃ ls, run inc_sync true dec_acq false init ls = Bad.
Proof. exists (shared ++ collect). destruct inc_sync, dec_acq; vm_compute; reflexivity. Qed.

Print Assumptions C58_no_race.
Print Assumptions C58_erased_last.
Print Assumptions C58_erased.
Print Assumptions C58_zero.
Print Assumptions C58_kept.
Print Assumptions C58_constructed_first.
Print Assumptions C58_release_refuted.
Print Assumptions C58_acquire_refuted.
