(** In [ConHb.v] the first access to an entry creates it and the last one
    destroys it (cf. [CoreHbLife.v]; there is no deleter count here). *)
From Verif Require Export ConHbRun.

(** the plain write to the counter of the entry created by [j] that does not
    initialize it: its destruction *)
Definition destroys (j : nat) (b : CoreHb.acc) : Prop := a_loc b = MRef j ∧ a_kind b = Write ∧ a_ev b ≠ j.

Record D (c : hb) : Prop := {
  d_live : ∀ h j E b, nd c !! h = Some (j, E) → b ∈ tr c → ¬ destroys j b;
  d_last : ∀ j a b, a ∈ tr c → b ∈ tr c → destroys j b → on j a → a_ev a ≤ a_ev b;
  d_first : ∀ j a, a ∈ tr c → on j a → j ≤ a_ev a ∧ ∃ t, ∀ l, l ∈ [MRep j; MRef j] → Acc j t l Write ∈ tr c;
  d_nd : ∀ h j E, nd c !! h = Some (j, E) → j < nxt c ∧ ∃ t, ∀ l, l ∈ [MRep j; MRef j] → Acc j t l Write ∈ tr c;
  d_lt : ∀ a, a ∈ tr c → a_ev a < nxt c;
  d_loc : ∀ a j, a ∈ tr c → on j a → j < nxt c;
  d_inj : ∀ h h' j E E', nd c !! h = Some (j, E) → nd c !! h' = Some (j, E') → h = h';
  d_all : ∀ j b, b ∈ tr c → destroys j b → ∀ l, l ∈ [MRep j; MRef j] → ∃ b', b' ∈ tr c ∧ a_ev b' = a_ev b ∧ a_loc b' = l ∧ a_kind b' = Write;
}.

Definition live_acc (c : hb) (l : mloc * kind) : Prop :=
  match l.1 with
  | MFac => True
  | MDel _ => False
  | MRep j => ∃ h E, nd c !! h = Some (j, E)
  | MRef j => (∃ h E, nd c !! h = Some (j, E)) ∧ l.2 = Atomic
  end.
Lemma live_on c l a j : live_acc c l → a_loc a = l.1 → a_kind a = l.2 → on j a → (∃ h E, nd c !! h = Some (j, E)) ∧ ¬ destroys j a.
Proof.
  intros Hl Ha Hk Hon. unfold live_acc, on, destroys in *. rewrite Ha, Hk in *.
  destruct l as [[|j'|j'|j'] k]; cbn in *; destruct Hon as [Ho|[Ho|Ho]]; try done; injection Ho as ->.
  - split; [done|]. by intros [? _].
  - destruct Hl as [Hl ->]. split; [done|]. by intros (_&?&_).
Qed.

Lemma D_emit t ls c : D c → (∀ l, l ∈ ls → live_acc c l) → D (emit t ls c).
Proof.
  intros [Dl Dz Df Dn Dt Do Di Da] Hls.
  assert (Hnew : ∀ a, a ∈ tr (emit t ls c) → (a ∈ tr c) ∨ (a_ev a = nxt c ∧ ∀ j, on j a → (∃ h E, nd c !! h = Some (j, E)) ∧ ¬ destroys j a)).
  { intros a [Ha|Ha]%elem_of_app; [right|by left]. apply new_acc in Ha as (l&Hl&?&?&?). split; [done|]. intros j Hon. by apply (live_on c l a j (Hls l Hl)). }
  assert (Hold : ∀ a, a ∈ tr c → a ∈ tr (emit t ls c)) by (intros a Ha; simpl; rewrite elem_of_app; auto).
  split; simpl.
  - intros h j E b Hj Hb Hd. destruct (Hnew b Hb) as [Hb'|[_ Hn]]; [by eapply Dl|]. destruct (Hn j) as [_ []]; [|done]. destruct Hd as [? _]. unfold on. auto.
  - intros j a b Ha Hb Hd Hon. destruct (Hnew b Hb) as [Hb'|[_ Hn]].
    + destruct (Hnew a Ha) as [Ha'|[_ Hn]]; [by eapply Dz|]. destruct (Hn j Hon) as [(h&E&Hj) _]. exfalso. by eapply Dl.
    + destruct (Hn j) as [_ []]; [|done]. destruct Hd as [? _]. unfold on. auto.
  - intros j a Ha Hon. destruct (Hnew a Ha) as [Ha'|[He Hn]].
    + destruct (Df j a Ha' Hon) as (?&t'&Ht'). split; [done|]. exists t'. auto.
    + destruct (Hn j Hon) as [(h&E&Hj) _]. destruct (Dn _ _ _ Hj) as (?&t'&Ht'). split; [lia|]. exists t'. auto.
  - intros h j E Hj. destruct (Dn _ _ _ Hj) as (?&t'&Ht'). split; [lia|]. exists t'. auto.
  - intros a Ha. destruct (Hnew a Ha) as [Ha'|[-> _]]; [apply Dt in Ha'; lia|lia].
  - intros a j Ha Hon. destruct (Hnew a Ha) as [Ha'|[_ Hn]]; [specialize (Do a j Ha' Hon); lia|]. destruct (Hn j Hon) as [(h&E&Hj) _].
    destruct (Dn _ _ _ Hj). lia.
  - done.
  - intros j b Hb Hd l Hl. destruct (Hnew b Hb) as [Hb'|[_ Hn]].
    + destruct (Da j b Hb' Hd l Hl) as (b'&?&?). exists b'. auto.
    + destruct (Hn j) as [_ []]; [|done]. destruct Hd as [? _]. unfold on. auto.
Qed.

Lemma D_same c c' : D c → tr c' = tr c → nxt c' = nxt c →
  (∀ h j E', nd c' !! h = Some (j, E') → ∃ E, nd c !! h = Some (j, E)) → D c'.
Proof.
  intros [Dl Dz Df Dn Dt Do Di Da] Ht Hx Hn. split; rewrite ?Ht, ?Hx; try done.
  - intros h j E b Hj. destruct (Hn _ _ _ Hj). by eapply Dl.
  - intros h j E Hj. destruct (Hn _ _ _ Hj). by eapply Dn.
  - intros h h' j E E' Hj Hj'. destruct (Hn _ _ _ Hj), (Hn _ _ _ Hj'). by eapply Di.
Qed.

(** the part of [ccreate], [cdestroy] that deals with events *)
Definition create2 (t : tid) (h : addr) (c : hb) : hb := set_nd (<[h:=(nxt c, ∅)]> (nd c)) (emit t [(MRep (nxt c), Write); (MRef (nxt c), Write)] c).
Definition destroy2 (t : tid) (h : addr) (c : hb) : hb := set_nd (delete h (nd c)) (emit t [(MRep (idn c h), Write); (MRef (idn c h), Write)] c).

Lemma D_create t h c : D c → D (create2 t h c).
Proof.
  intros [Dl Dz Df Dn Dt Do Di Da]. set (j := nxt c).
  assert (Hnew : ∀ a, a ∈ tr (create2 t h c) → (a ∈ tr c) ∨ (a_ev a = j ∧ ∀ j', on j' a → j' = j)).
  { intros a Ha. unfold create2 in Ha. cbn in Ha. rewrite !elem_of_cons in Ha. unfold on.
    destruct Ha as [->|[->|Ha]]; [right; split; [done|]; simpl; naive_solver..|by left]. }
  assert (Hold : ∀ a, a ∈ tr c → a ∈ tr (create2 t h c)) by (intros a Ha; unfold create2; cbn; rewrite !elem_of_cons; auto).
  assert (Hj : ∀ l, l ∈ [MRep j; MRef j] → Acc j t l Write ∈ tr (create2 t h c)).
  { intros l Hl. unfold create2. cbn. rewrite !elem_of_cons in *. rewrite elem_of_nil in Hl. destruct Hl as [->|[->|[]]]; auto. }
  assert (Hnd : ∀ b j' F, nd (create2 t h c) !! b = Some (j', F) → (b = h ∧ j' = j) ∨ (b ≠ h ∧ nd c !! b = Some (j', F))).
  { intros b j' F Hb. unfold create2 in Hb. simpl in Hb. apply lookup_insert_Some in Hb as [[<- [= <- <-]]|[Hne Hb]]; [by left|by right]. }
  assert (Hnx : nxt (create2 t h c) = S j) by done.
  assert (Hno : ∀ a, a ∈ tr c → ¬ on j a) by (intros a Ha Ho; specialize (Do a j Ha Ho); unfold j in *; lia).
  assert (Hdn : ∀ b j', a_ev b = j → (∀ j', on j' b → j' = j) → ¬ destroys j' b).
  { intros b j' He Hb (Hl&_&Hne). apply Hne. rewrite He. symmetry. apply Hb. unfold on. auto. }
  split; rewrite ?Hnx.
  - intros b j' F a Hb Ha Hd. destruct (Hnew a Ha) as [Ha'|[He Ho]]; [|by eapply Hdn]. destruct (Hnd _ _ _ Hb) as [[_ ->]|[_ Hb']]; [|by eapply Dl].
    apply (Hno a Ha'). destruct Hd as [? _]. unfold on. auto.
  - intros j' a b Ha Hb Hd Hon. destruct (Hnew b Hb) as [Hb'|[He Ho]]; [|by apply Hdn in Hd].
    destruct (Hnew a Ha) as [Ha'|[He Ho]]; [by eapply Dz|]. rewrite (Ho _ Hon) in Hd. exfalso. apply (Hno b Hb'). destruct Hd as [? _]. unfold on. auto.
  - intros j' a Ha Hon. destruct (Hnew a Ha) as [Ha'|[He Ho]].
    + destruct (Df j' a Ha' Hon) as (?&t'&Ht'). split; [done|]. exists t'. auto.
    + rewrite (Ho _ Hon), He. split; [done|]. by exists t.
  - intros b j' F Hb. destruct (Hnd _ _ _ Hb) as [[_ ->]|[_ Hb']]; [split; [lia|]; by exists t|].
    destruct (Dn _ _ _ Hb') as (?&t'&Ht'). split; [unfold j; lia|]. exists t'. auto.
  - intros a Ha. destruct (Hnew a Ha) as [Ha'|[-> _]]; [apply Dt in Ha'; unfold j; lia|lia].
  - intros a j' Ha Hon. destruct (Hnew a Ha) as [Ha'|[He Ho]]; [specialize (Do a j' Ha' Hon); unfold j; lia|]. rewrite (Ho _ Hon). lia.
  - intros b b' j' F F' Hb Hb'. destruct (Hnd _ _ _ Hb) as [[-> ->]|[_ H1]], (Hnd _ _ _ Hb') as [[-> H2]|[_ H2]]; try done.
    + destruct (Dn _ _ _ H2). unfold j in *. lia.
    + subst. destruct (Dn _ _ _ H1). unfold j in *. lia.
    + by eapply Di.
  - intros j' b Hb Hd l Hl. destruct (Hnew b Hb) as [Hb'|[He Ho]]; [|by apply Hdn in Hd].
    destruct (Da j' b Hb' Hd l Hl) as (b'&?&?). exists b'. auto.
Qed.

Lemma D_destroy t h c : D c → is_Some (nd c !! h) → D (destroy2 t h c).
Proof.
  intros [Dl Dz Df Dn Dt Do Di Da] [[j E] Hj]. assert (Hid : idn c h = j) by (unfold idn; by rewrite Hj).
  assert (Hnew : ∀ a, a ∈ tr (destroy2 t h c) → (a ∈ tr c) ∨ (a_ev a = nxt c ∧ ∀ j', on j' a → j' = j)).
  { intros a Ha. unfold destroy2 in Ha. cbn in Ha. rewrite Hid, !elem_of_cons in Ha. unfold on.
    destruct Ha as [->|[->|Ha]]; [right; split; [done|]; simpl; naive_solver..|by left]. }
  assert (Hold : ∀ a, a ∈ tr c → a ∈ tr (destroy2 t h c)) by (intros a Ha; unfold destroy2; cbn; rewrite !elem_of_cons; auto).
  assert (Hnd : ∀ b j' F, nd (destroy2 t h c) !! b = Some (j', F) → b ≠ h ∧ j' ≠ j ∧ nd c !! b = Some (j', F)).
  { intros b j' F Hb. unfold destroy2 in Hb. simpl in Hb. apply lookup_delete_Some in Hb as [Hne Hb]. split_and!; [done| |done].
    intros ->. by apply Hne, (Di _ _ _ _ _ Hj Hb). }
  assert (Hnx : nxt (destroy2 t h c) = S (nxt c)) by done. destruct (Dn _ _ _ Hj) as (Hlt&t1&Ht1).
  split; rewrite ?Hnx.
  - intros b j' F a Hb Ha Hd. destruct (Hnd _ _ _ Hb) as (_&Hne&Hb'). destruct (Hnew a Ha) as [Ha'|[He Ho]]; [by eapply Dl|].
    apply Hne, Ho. destruct Hd as [? _]. unfold on. auto.
  - intros j' a b Ha Hb Hd Hon. destruct (Hnew b Hb) as [Hb'|[He Ho]].
    + destruct (Hnew a Ha) as [Ha'|[He Ho]]; [by eapply Dz|]. rewrite (Ho _ Hon) in Hd. exfalso. by eapply Dl.
    + rewrite He. destruct (Hnew a Ha) as [Ha'|[-> _]]; [apply Dt in Ha'; lia|lia].
  - intros j' a Ha Hon. destruct (Hnew a Ha) as [Ha'|[He Ho]].
    + destruct (Df j' a Ha' Hon) as (?&t'&Ht'). split; [done|]. exists t'. auto.
    + rewrite (Ho _ Hon), He. split; [lia|]. exists t1. auto.
  - intros b j' F Hb. destruct (Hnd _ _ _ Hb) as (_&_&Hb'). destruct (Dn _ _ _ Hb') as (?&t'&Ht'). split; [lia|]. exists t'. auto.
  - intros a Ha. destruct (Hnew a Ha) as [Ha'|[-> _]]; [apply Dt in Ha'; lia|lia].
  - intros a j' Ha Hon. destruct (Hnew a Ha) as [Ha'|[He Ho]]; [specialize (Do a j' Ha' Hon); lia|]. rewrite (Ho _ Hon). lia.
  - intros b b' j' F F' Hb Hb'. destruct (Hnd _ _ _ Hb) as (_&_&H1), (Hnd _ _ _ Hb') as (_&_&H2). by eapply Di.
  - intros j' b Hb Hd l Hl. destruct (Hnew b Hb) as [Hb'|[He Ho]].
    + destruct (Da j' b Hb' Hd l Hl) as (b'&?&?). exists b'. auto.
    + assert (j' = j) as -> by (apply Ho; destruct Hd as [? _]; unfold on; auto). exists (Acc (nxt c) t l Write). split_and!; [|done..].
      unfold destroy2. cbn. rewrite Hid, !elem_of_cons in *. rewrite elem_of_nil in Hl. destruct Hl as [->|[->|[]]]; auto 6.
Qed.

(** the same entries *)
Definition ids (c c' : hb) : Prop := ∀ h, is_Some (nd c' !! h) ↔ is_Some (nd c !! h).
Lemma idn_live c h : is_Some (nd c !! h) → ∃ E, nd c !! h = Some (idn c h, E).
Proof. intros [[j E] Hj]. exists E. unfold idn. by rewrite Hj. Qed.

Lemma D_learn t E c : D c → D (learn t E c).
Proof. intros H. eapply D_same; [done|done|done|]. simpl. eauto. Qed.
Lemma D_used t x c : D c → D (used t x c) ∧ ids c (used t x c).
Proof. intros H. unfold used. destruct (ob c !! x) as [[w r]|]; [|done]. split; [|done]. eapply D_same; [done|done|done|]. simpl. eauto. Qed.
Lemma D_rmw acq rls t h c : D c → is_Some (nd c !! h) → D (rmw acq rls t h c) ∧ ids c (rmw acq rls t h c).
Proof.
  intros H Hh. destruct (idn_live c h Hh) as [E Hj]. set (c1 := emit t [(MRef (idn c h), Atomic)] c).
  assert (D1 : D c1) by (apply D_emit; [done|]; intros l ->%elem_of_list_singleton; simpl; unfold live_acc; cbn; eauto).
  pose proof (rmw_rest acq rls t h c) as (_&_&_&Rn&Rt). pose proof (nd_rmw acq rls t h c _ E Hj) as Rd. split.
  - eapply (D_same c1); [done|done|done|]. intros b j E' Hb. rewrite Rd in Hb. destruct rls; [|by exists E'].
    apply lookup_insert_Some in Hb as [[<- [= <- <-]]|[_ Hb]]; [by exists E|by exists E'].
  - intros b. rewrite Rd. destruct rls; [|done]. destruct (decide (b = h)) as [->|Hne]; [rewrite lookup_insert; split; [done|by eexists]|by rewrite lookup_insert_ne].
Qed.
Lemma D_touch t x h c : D c → is_Some (nd c !! h) → D (touch t x h c) ∧ ids c (touch t x h c).
Proof.
  intros H Hh. destruct (idn_live c h Hh) as [E Hj]. unfold touch. set (c1 := emit t _ c).
  assert (D1 : D c1) by (apply D_emit; [done|]; intros l ->%elem_of_list_singleton; simpl; unfold live_acc; cbn; eauto).
  destruct (D_used t x c1 D1) as [D2 I2]. done.
Qed.


Lemma D_obj c O : D c → D (set_ob O c).
Proof. intros H. eapply D_same; [done|done|done|]. simpl. eauto. Qed.
Lemma ids_trans c c' c'' : ids c c' → ids c' c'' → ids c c''.
Proof. intros H1 H2 h. by rewrite (H2 h). Qed.

Section Life.
  Context {K A R V : Type}.
  Context (P : Core.policy K A R V) (eqv : K → K → bool) (good : R → Prop).
  Context (Heq : equivalence eqv) (HP : policy_ok eqv good P).
  Context (inc_sync dec_acq : bool).
  Notation state := (state (K:=K) (A:=A) (R:=R)).
  Notation instr := (instr (K:=K) (A:=A) (R:=R)).
  Notation Inv := (Inv P eqv good).
  Notation J := (J P).
  Notation G := (G P eqv good).
  Notation cexec := (cexec P eqv inc_sync true dec_acq).
  Notation cstart := (cstart (K:=K) (A:=A) (R:=R) inc_sync).
  Notation cwalk := (cwalk P inc_sync true dec_acq).
  Notation cstep := (cstep P eqv inc_sync true dec_acq true).
  Notation crun := (crun P eqv inc_sync true dec_acq true).
  Implicit Types (s : state) (c : hb) (d : chb) (h : addr) (i : instr).

  (** the machine keeps [D] and the entries *)
  Definition DI d d' : Prop := D (co d') ∧ ids (co d) (co d').
  Lemma DI_trans d d' d'' : DI d d' → (D (co d') → ids (co d) (co d') → DI d' d'') → DI d d''.
  Proof. intros [H1 H2] H. destruct (H H1 H2) as [H3 H4]. split; [done|]. by eapply ids_trans. Qed.
  Lemma DI_use t x d : D (co d) → DI d (use t x d).
  Proof. intros H. split; [by apply D_learn|done]. Qed.
  Lemma DI_all t x d : D (co d) → DI d (all_uses t x d).
  Proof. intros H. split; [by apply D_learn|done]. Qed.
  Lemma DI_done t x d : D (co d) → DI d (done_ t x d).
  Proof. intros H. by apply D_used. Qed.
  Lemma DI_enter t h d : D (co d) → DI d (enter t h d).
  Proof. intros H. split; [by apply D_learn|done]. Qed.
  Lemma DI_leave t h d : D (co d) → DI d (leave t h d).
  Proof. intros H. by split. Qed.
  Lemma DI_see t h k d : D (co d) → is_Some (nd (co d) !! h) → DI d (see t h k d).
  Proof.
    intros H Hh. destruct (idn_live _ h Hh) as [E Hj]. split; [|done]. unfold see, on_co. cbn [co].
    apply D_emit; [done|]. intros l ->%elem_of_list_singleton. unfold live_acc. cbn. eauto.
  Qed.
  Lemma DI_rmw acq rls z t h d : D (co d) → is_Some (nd (co d) !! h) → DI d (crmw acq rls z t h d).
  Proof. intros H Hh. by apply D_rmw. Qed.
  Lemma DI_copy t y h d : D (co d) → is_Some (nd (co d) !! h) → DI d (ccopy inc_sync t y h d).
  Proof.
    intros H Hh. unfold ccopy, cincr. eapply DI_trans; [by apply (DI_use t y)|]. intros D1 I1.
    eapply DI_trans; [apply DI_rmw; [done|by apply I1]|]. intros D2 I2. by apply DI_done.
  Qed.

  Lemma exec_D s d t i rest thr s' : Inv s → J s (co d) (lset d) → D (co d) → stack s t = i :: rest → exec P eqv s t i rest thr = Next s' → D (co (cexec s t i thr d)).
  Proof.
    intros HI HJ HD Hst He. assert (Htop : i ∈ stack s t) by (rewrite Hst; by left).
    assert (Hnd : ∀ h n, ents s !! h = Some n → is_Some (nd (co d) !! h)) by (intros h n Hn; apply (j_nd _ _ _ _ HJ); by eexists).
    assert (Hl : ∀ y h, live s y = Some h → is_Some (nd (co d) !! h)).
    { intros y h Hy%live_vars. apply (j_nd _ _ _ _ HJ). destruct (ents s !! h) eqn:E; [by eexists|]. pose proof (i_gone _ _ _ _ HI h E). pose proof (cnt_var P s y h Hy). lia. }
    assert (Hr : ∀ h acq rls z, is_Some (nd (co d) !! h) → D (co (crmw acq rls z t h d))) by (intros h acq rls z Hh; by apply D_rmw).
    assert (Ho : ∀ x c, D c → D (fresh_ob t x c)) by (intros x c H; by apply D_obj).
    assert (Hown : ∀ h, 0 < own P h i → is_Some (nd (co d) !! h)).
    { intros h Hh. apply (j_nd _ _ _ _ HJ). destruct (ents s !! h) eqn:E; [by eexists|]. pose proof (i_gone _ _ _ _ HI h E) as H0. pose proof (no_cnt_own P s t i h H0 Htop). lia. }
    assert (Hacc : ∀ h, 0 < ConcurrentInv.acc h i → is_Some (nd (co d) !! h)).
    { intros h Hh. destruct (accessed P eqv good s t i h HI Htop Hh) as (n&Hn&_). by eapply Hnd. }
    destruct i as [x p [|y ys] got|x p r|x h p ks k|x h ks k|x h ks k|h|x h k|x|x h|x y hx hy|x y hx hy|x y hx hy|h [|j]|h|h|h]; cbn [ConHb.cexec].
    - done.
    - destruct (live s y) as [h|] eqn:Hy; [|done]. apply DI_copy; [done|]. eauto.
    - destruct thr; [done|]. destruct (find P eqv s (p_key P r)) as [h|] eqn:Hf.
      + destruct (find_some P eqv s _ h Hf) as (n&Hn&_). apply DI_see; [by apply D_learn|]. by eapply Hnd.
      + change (D (create2 t (clock s) (co d))). by apply D_create.
    - destruct (ents s !! h) as [n|] eqn:Hn; [|done]. pose proof (Hnd h n Hn) as Hh. destruct (p_val P (n_rep n)); [by apply DI_see|].
      destruct thr; by apply DI_see.
    - apply Hr, Hacc. simpl. rewrite at_eq. lia.
    - done.
    - apply Hr, Hown. simpl. rewrite at_eq. lia.
    - by apply Ho.
    - done.
    - cbn [exec] in He. destruct (decide (live s x = Some h)); [|done]. destruct (ents s !! h) as [n|] eqn:Hn; [|done]. apply D_used. apply DI_see; [by apply D_learn|]. by eapply Hnd.
    - apply Hr, Hown. simpl. rewrite at_eq. lia.
    - apply Hr, Hown. simpl. rewrite at_eq. lia.
    - unfold own_, on_co. cbn [co]. by apply Ho, Ho.
    - apply Hr, Hown. simpl. rewrite at_eq. lia.
    - apply Hr, Hown. simpl. rewrite at_eq. lia.
    - done.
    - change (D (destroy2 t h (co d))). apply D_destroy; [done|]. apply Hacc. simpl. rewrite at_eq. lia.
    - done.
  Qed.

  Lemma start_D s d t o : Inv s → J s (co d) (lset d) → D (co d) → D (co (cstart s t o d)).
  Proof.
    intros HI HJ HD.
    assert (Hl : ∀ y h, live s y = Some h → is_Some (nd (co d) !! h)).
    { intros y h Hy%live_vars. apply (j_nd _ _ _ _ HJ). destruct (ents s !! h) eqn:E; [by eexists|]. pose proof (i_gone _ _ _ _ HI h E). pose proof (cnt_var P s y h Hy). lia. }
    destruct o as [x p ys|x y|x y|x y|x|x]; cbn [ConHb.cstart].
    - done.
    - destruct (live s y) as [h|] eqn:Hy; [|done]. apply D_obj. apply DI_copy; [done|]. eauto.
    - destruct (live s y) as [h|] eqn:Hy; [|done]. apply D_obj. apply DI_copy; [by apply D_learn|]. simpl. eauto.
    - destruct (live s x) as [h|] eqn:Hx; [|done].
      assert (D1 : D (co (ccopy inc_sync t x h (all_uses t y (all_uses t x d))))) by (apply DI_copy; [by apply D_learn, D_learn|simpl; eauto]).
      case_decide; [done|]. by apply D_obj, D_obj.
    - by apply D_obj, D_learn.
    - destruct (live s x) as [h|] eqn:Hx; [|done]. apply DI_copy; [done|]. eauto.
  Qed.

  Lemma walk_D s t x path : ∀ h d, D (co d) → (∀ b n, ents s !! b = Some n → is_Some (nd (co d) !! b)) → is_Some (nd (co d) !! h) →
    (∀ b n h', ents s !! b = Some n → h' ∈ p_kids P (n_rep n) → ∃ n', ents s !! h' = Some n') → D (co (cwalk s t x h path d)).
  Proof.
    induction path as [|j path IH]; intros h d HD He Hh Hk; cbn [ConHb.cwalk]; set (d' := done_ t x _).
    all: assert (DI d d') as [D1 I1].
    all: try (unfold d'; eapply DI_trans; [by apply (DI_rmw inc_sync inc_sync 1 t h)|]; intros D1 I1;
      eapply DI_trans; [by apply (DI_done t x)|]; intros D2 I2; eapply DI_trans; [apply (DI_rmw dec_acq true (-1) t h); [done|by apply I2, I1]|]; intros D3 I3;
      eapply DI_trans; [by apply (DI_done t x)|]; intros D4 I4; eapply DI_trans; [apply (DI_see t h Read); [done|by apply I4, I3, I2, I1]|]; intros D5 I5; by apply DI_done).
    - done.
    - destruct (ents s !! h) as [n|] eqn:Hn; [|done]. destruct (p_kids P (n_rep n) !! j) as [h'|] eqn:Hj; [|done]. apply elem_of_list_lookup_2 in Hj.
      destruct (Hk h n h' Hn Hj) as [n' Hn']. apply IH; [done| |by apply I1; eapply He|done]. intros b m Hb. apply I1. by eapply He.
  Qed.

  Lemma cstep_D sd l sd' : G sd → D (co sd.2) → cstep sd l = Some sd' → D (co sd'.2).
  Proof.
    destruct sd as [s d]. intros [HI [HJ _]] HD. simpl in HI, HJ, HD. destruct l as [l|i|t h|t u|t x path]; cbn [ConHb.cstep].
    - destruct (tests s l); [by intros [= <-]|]. destruct (step P eqv s l) as [s'| |] eqn:El; [|by intros [= <-]|done]. intros [= <-]. simpl.
      destruct l as [t o|t thr| |h|]; cbn [clab]; cbn [step] in El; try done.
      + by apply start_D.
      + destruct (stack s t) as [|i rest] eqn:Hst; [done|]. by eapply exec_D.
      + by apply D_learn.
    - destruct (stack s gc_tid) as [|i0 rest] eqn:Est; [by intros [= <-]|]. destruct i0; try (by intros [= <-]). destruct (ents s !! h) as [n|] eqn:Hn; [|done].
      destruct (load true gc_tid h i d) as [[v d']|] eqn:Hl; intros [= <-]; [|done]. simpl. unfold load in Hl.
      destruct (hist d h !! i) as [[[e v'] E]|]; [|done]. destruct (forallb _ _); [|done]. injection Hl as _ <-. unfold on_co. cbn [co]. apply D_learn.
      assert (is_Some (nd (co d) !! h)) as Hh by (apply (j_nd _ _ _ _ HJ); by eexists). destruct (idn_live _ h Hh) as [F Hj].
      apply D_emit; [done|]. intros l ->%elem_of_list_singleton. unfold live_acc. cbn. eauto.
    - destruct (stack s t) as [|[] ?] eqn:Est; try (by intros [= <-]). destruct (ents s !! h) as [[r1 z1 [o1|]]|] eqn:Hn; intros [= <-]; [done| |done]. simpl.
      apply (DI_see t h Read (enter t h d)); [by apply D_learn|]. apply (j_nd _ _ _ _ HJ). by eexists.
    - intros [= <-]. by apply D_learn.
    - destruct (stack s t); [|by intros [= <-]]. destruct (live s x) as [h|] eqn:Hx; intros [= <-]; [|done]. simpl. apply live_vars in Hx.
      assert (Hc : ∀ b, 0 < cnt P s b → ∃ n', ents s !! b = Some n').
      { intros b Hb. destruct (ents s !! b) eqn:E; [by eexists|]. pose proof (i_gone _ _ _ _ HI b E). lia. }
      apply walk_D; [by apply D_learn| | |].
      + intros b n Hb. apply (j_nd _ _ _ _ HJ). by eexists.
      + apply (j_nd _ _ _ _ HJ). by apply Hc, (cnt_var P s x).
      + intros b n h' Hb Hk. apply Hc. by eapply (cnt_kid P s b n).
  Qed.

  Lemma D_init : D hinit.
  Proof.
    assert (Ht : ∀ a : CoreHb.acc, a ∉ tr hinit) by (intros a; apply not_elem_of_nil). assert (Hn : ∀ h, nd hinit !! h = None) by (intros h; apply lookup_empty).
    split.
    - intros h *. by rewrite Hn.
    - intros j a b Ha. by destruct (Ht a).
    - intros j a Ha. by destruct (Ht a).
    - intros h *. by rewrite Hn.
    - intros a Ha. by destruct (Ht a).
    - intros a j Ha. by destruct (Ht a).
    - intros h *. by rewrite Hn.
    - intros j b Hb. by destruct (Ht b).
  Qed.

  Lemma crun_life ls sd : crun (init, cinit) ls = Some sd → G sd ∧ D (co sd.2).
  Proof.
    assert (H : ∀ sd0, G sd0 → D (co sd0.2) → crun sd0 ls = Some sd → G sd ∧ D (co sd.2)).
    { induction ls as [|l ls IH]; intros sd0 H0 D0; cbn [ConHb.crun]; [by intros [= <-]|].
      destruct (cstep_G P eqv good Heq HP inc_sync dec_acq sd0 l H0) as (sd1&E1&H1). rewrite E1. apply IH; [done|]. exact (cstep_D sd0 l sd1 H0 D0 E1). }
    apply H; [by apply cinit_G|apply D_init].
  Qed.
End Life.
