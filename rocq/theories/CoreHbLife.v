(** In [CoreHb.v] the first access to an entry creates it and the last one
    destroys it. *)
From Verif Require Export CoreHbRun.

(** the plain write to the counter of the entry created by [j] that does not
    initialize it: its destruction *)
Definition destroys (j : nat) (b : acc) : Prop := a_loc b = MRef j ∧ a_kind b = Write ∧ a_ev b ≠ j.

Record D (c : hb) : Prop := {
  d_live : ∀ h j E b, nd c !! h = Some (j, E) → b ∈ tr c → ¬ destroys j b;
  d_last : ∀ j a b, a ∈ tr c → b ∈ tr c → destroys j b → on j a → a_ev a ≤ a_ev b;
  d_first : ∀ j a, a ∈ tr c → on j a → j ≤ a_ev a ∧ ∃ t, ∀ l, l ∈ [MRep j; MDel j; MRef j] → Acc j t l Write ∈ tr c;
  d_nd : ∀ h j E, nd c !! h = Some (j, E) → j < nxt c ∧ ∃ t, ∀ l, l ∈ [MRep j; MDel j; MRef j] → Acc j t l Write ∈ tr c;
  d_lt : ∀ a, a ∈ tr c → a_ev a < nxt c;
  d_loc : ∀ a j, a ∈ tr c → on j a → j < nxt c;
  d_inj : ∀ h h' j E E', nd c !! h = Some (j, E) → nd c !! h' = Some (j, E') → h = h';
  d_all : ∀ j b, b ∈ tr c → destroys j b → ∀ l, l ∈ [MRep j; MDel j; MRef j] → ∃ b', b' ∈ tr c ∧ a_ev b' = a_ev b ∧ a_loc b' = l ∧ a_kind b' = Write;
}.

Definition live_acc (c : hb) (l : mloc * kind) : Prop :=
  match l.1 with
  | MFac => True
  | MRep j | MDel j => ∃ h E, nd c !! h = Some (j, E)
  | MRef j => (∃ h E, nd c !! h = Some (j, E)) ∧ l.2 = Atomic
  end.
Lemma live_on c l a j : live_acc c l → a_loc a = l.1 → a_kind a = l.2 → on j a → (∃ h E, nd c !! h = Some (j, E)) ∧ ¬ destroys j a.
Proof.
  intros Hl Ha Hk Hon. unfold live_acc, on, destroys in *. rewrite Ha, Hk in *.
  destruct l as [[|j'|j'|j'] k]; cbn in *; destruct Hon as [Ho|[Ho|Ho]]; try done; injection Ho as ->.
  - split; [done|]. by intros [? _].
  - split; [done|]. by intros [? _].
  - destruct Hl as [Hl ->]. split; [done|]. by intros (_&?&_).
Qed.

Lemma D_emit t ls c : D c → (∀ l, l ∈ ls → live_acc c l) → D (emit t ls c).
Proof.
  intros [Dl Dz Df Dn Dt Do Di Da] Hls.
  assert (Hnew : ∀ a, a ∈ tr (emit t ls c) → (a ∈ tr c) ∨ (a_ev a = nxt c ∧ ∀ j, on j a → (∃ h E, nd c !! h = Some (j, E)) ∧ ¬ destroys j a)).
  { intros a [Ha|Ha]%elem_of_app; [right|by left]. apply new_acc in Ha as (l&Hl&?&?&?). split; [done|]. intros j Hon. by apply (live_on c l a j (Hls l Hl)). }
  assert (Hold : ∀ a, a ∈ tr c → a ∈ tr (emit t ls c)) by (intros a Ha; simpl; rewrite elem_of_app; auto).
  split; simpl.
  - intros h j E b Hj Hb Hd. destruct (Hnew b Hb) as [Hb'|[_ Hn]]; [by eapply Dl|]. destruct (Hn j) as [_ []]; [|done]. destruct Hd as [? _]. unfold on. auto.
  - intros j a b Ha Hb Hd Hon. destruct (Hnew b Hb) as [Hb'|[_ Hn]].
    + destruct (Hnew a Ha) as [Ha'|[_ Hn]]; [by eapply Dz|]. destruct (Hn j Hon) as [(h&E&Hj) _]. exfalso. by eapply Dl.
    + destruct (Hn j) as [_ []]; [|done]. destruct Hd as [? _]. unfold on. auto.
  - intros j a Ha Hon. destruct (Hnew a Ha) as [Ha'|[He Hn]].
    + destruct (Df j a Ha' Hon) as (?&t'&Ht'). split; [done|]. exists t'. auto.
    + destruct (Hn j Hon) as [(h&E&Hj) _]. destruct (Dn _ _ _ Hj) as (?&t'&Ht'). split; [lia|]. exists t'. auto.
  - intros h j E Hj. destruct (Dn _ _ _ Hj) as (?&t'&Ht'). split; [lia|]. exists t'. auto.
  - intros a Ha. destruct (Hnew a Ha) as [Ha'|[-> _]]; [apply Dt in Ha'; lia|lia].
  - intros a j Ha Hon. destruct (Hnew a Ha) as [Ha'|[_ Hn]]; [specialize (Do a j Ha' Hon); lia|]. destruct (Hn j Hon) as [(h&E&Hj) _].
    destruct (Dn _ _ _ Hj). lia.
  - done.
  - intros j b Hb Hd l Hl. destruct (Hnew b Hb) as [Hb'|[_ Hn]].
    + destruct (Da j b Hb' Hd l Hl) as (b'&?&?). exists b'. auto.
    + destruct (Hn j) as [_ []]; [|done]. destruct Hd as [? _]. unfold on. auto.
Qed.

Lemma D_same c c' : D c → tr c' = tr c → nxt c' = nxt c →
  (∀ h j E', nd c' !! h = Some (j, E') → ∃ E, nd c !! h = Some (j, E)) → D c'.
Proof.
  intros [Dl Dz Df Dn Dt Do Di Da] Ht Hx Hn. split; rewrite ?Ht, ?Hx; try done.
  - intros h j E b Hj. destruct (Hn _ _ _ Hj). by eapply Dl.
  - intros h j E Hj. destruct (Hn _ _ _ Hj). by eapply Dn.
  - intros h h' j E E' Hj Hj'. destruct (Hn _ _ _ Hj), (Hn _ _ _ Hj'). by eapply Di.
Qed.

Lemma D_create t h c : D c → D (create t h c).
Proof.
  intros [Dl Dz Df Dn Dt Do Di Da]. set (j := nxt c).
  assert (Hnew : ∀ a, a ∈ tr (create t h c) → (a ∈ tr c) ∨ (a_ev a = j ∧ ∀ j', on j' a → j' = j)).
  { intros a Ha. unfold create in Ha. cbn in Ha. rewrite !elem_of_cons in Ha. unfold on.
    destruct Ha as [->|[->|[->|Ha]]]; [right; split; [done|]; simpl; naive_solver..|by left]. }
  assert (Hold : ∀ a, a ∈ tr c → a ∈ tr (create t h c)) by (intros a Ha; unfold create; cbn; rewrite !elem_of_cons; auto).
  assert (Hj : ∀ l, l ∈ [MRep j; MDel j; MRef j] → Acc j t l Write ∈ tr (create t h c)).
  { intros l Hl. unfold create. cbn. rewrite !elem_of_cons in *. rewrite elem_of_nil in Hl. destruct Hl as [->|[->|[->|[]]]]; auto. }
  assert (Hnd : ∀ b j' F, nd (create t h c) !! b = Some (j', F) → (b = h ∧ j' = j) ∨ (b ≠ h ∧ nd c !! b = Some (j', F))).
  { intros b j' F Hb. unfold create in Hb. simpl in Hb. apply lookup_insert_Some in Hb as [[<- [= <- <-]]|[Hne Hb]]; [by left|by right]. }
  assert (Hnx : nxt (create t h c) = S j) by done.
  assert (Hno : ∀ a, a ∈ tr c → ¬ on j a) by (intros a Ha Ho; specialize (Do a j Ha Ho); unfold j in *; lia).
  assert (Hdn : ∀ b j', a_ev b = j → (∀ j', on j' b → j' = j) → ¬ destroys j' b).
  { intros b j' He Hb (Hl&_&Hne). apply Hne. rewrite He. symmetry. apply Hb. unfold on. auto. }
  split; rewrite ?Hnx.
  - intros b j' F a Hb Ha Hd. destruct (Hnew a Ha) as [Ha'|[He Ho]]; [|by eapply Hdn]. destruct (Hnd _ _ _ Hb) as [[_ ->]|[_ Hb']]; [|by eapply Dl].
    apply (Hno a Ha'). destruct Hd as [? _]. unfold on. auto.
  - intros j' a b Ha Hb Hd Hon. destruct (Hnew b Hb) as [Hb'|[He Ho]]; [|by apply Hdn in Hd].
    destruct (Hnew a Ha) as [Ha'|[He Ho]]; [by eapply Dz|]. rewrite (Ho _ Hon) in Hd. exfalso. apply (Hno b Hb'). destruct Hd as [? _]. unfold on. auto.
  - intros j' a Ha Hon. destruct (Hnew a Ha) as [Ha'|[He Ho]].
    + destruct (Df j' a Ha' Hon) as (?&t'&Ht'). split; [done|]. exists t'. auto.
    + rewrite (Ho _ Hon), He. split; [done|]. by exists t.
  - intros b j' F Hb. destruct (Hnd _ _ _ Hb) as [[_ ->]|[_ Hb']]; [split; [lia|]; by exists t|].
    destruct (Dn _ _ _ Hb') as (?&t'&Ht'). split; [unfold j; lia|]. exists t'. auto.
  - intros a Ha. destruct (Hnew a Ha) as [Ha'|[-> _]]; [apply Dt in Ha'; unfold j; lia|lia].
  - intros a j' Ha Hon. destruct (Hnew a Ha) as [Ha'|[He Ho]]; [specialize (Do a j' Ha' Hon); unfold j; lia|]. rewrite (Ho _ Hon). lia.
  - intros b b' j' F F' Hb Hb'. destruct (Hnd _ _ _ Hb) as [[-> ->]|[_ H1]], (Hnd _ _ _ Hb') as [[-> H2]|[_ H2]]; try done.
    + destruct (Dn _ _ _ H2). unfold j in *. lia.
    + subst. destruct (Dn _ _ _ H1). unfold j in *. lia.
    + by eapply Di.
  - intros j' b Hb Hd l Hl. destruct (Hnew b Hb) as [Hb'|[He Ho]]; [|by apply Hdn in Hd].
    destruct (Da j' b Hb' Hd l Hl) as (b'&?&?). exists b'. auto.
Qed.

Lemma D_destroy t h c : D c → is_Some (nd c !! h) → D (destroy t h c).
Proof.
  intros [Dl Dz Df Dn Dt Do Di Da] [[j E] Hj]. assert (Hid : idn c h = j) by (unfold idn; by rewrite Hj).
  assert (Hnew : ∀ a, a ∈ tr (destroy t h c) → (a ∈ tr c) ∨ (a_ev a = nxt c ∧ ∀ j', on j' a → j' = j)).
  { intros a Ha. unfold destroy in Ha. cbn in Ha. rewrite Hid, !elem_of_cons in Ha. unfold on.
    destruct Ha as [->|[->|[->|[->|Ha]]]]; [right; split; [done|]; simpl; naive_solver..|by left]. }
  assert (Hold : ∀ a, a ∈ tr c → a ∈ tr (destroy t h c)) by (intros a Ha; unfold destroy; cbn; rewrite !elem_of_cons; auto).
  assert (Hnd : ∀ b j' F, nd (destroy t h c) !! b = Some (j', F) → b ≠ h ∧ j' ≠ j ∧ nd c !! b = Some (j', F)).
  { intros b j' F Hb. unfold destroy in Hb. simpl in Hb. apply lookup_delete_Some in Hb as [Hne Hb]. split_and!; [done| |done].
    intros ->. by apply Hne, (Di _ _ _ _ _ Hj Hb). }
  assert (Hnx : nxt (destroy t h c) = S (nxt c)) by done. destruct (Dn _ _ _ Hj) as (Hlt&t1&Ht1).
  split; rewrite ?Hnx.
  - intros b j' F a Hb Ha Hd. destruct (Hnd _ _ _ Hb) as (_&Hne&Hb'). destruct (Hnew a Ha) as [Ha'|[He Ho]]; [by eapply Dl|].
    apply Hne, Ho. destruct Hd as [? _]. unfold on. auto.
  - intros j' a b Ha Hb Hd Hon. destruct (Hnew b Hb) as [Hb'|[He Ho]].
    + destruct (Hnew a Ha) as [Ha'|[He Ho]]; [by eapply Dz|]. rewrite (Ho _ Hon) in Hd. exfalso. by eapply Dl.
    + rewrite He. destruct (Hnew a Ha) as [Ha'|[-> _]]; [apply Dt in Ha'; lia|lia].
  - intros j' a Ha Hon. destruct (Hnew a Ha) as [Ha'|[He Ho]].
    + destruct (Df j' a Ha' Hon) as (?&t'&Ht'). split; [done|]. exists t'. auto.
    + rewrite (Ho _ Hon), He. split; [lia|]. exists t1. auto.
  - intros b j' F Hb. destruct (Hnd _ _ _ Hb) as (_&_&Hb'). destruct (Dn _ _ _ Hb') as (?&t'&Ht'). split; [lia|]. exists t'. auto.
  - intros a Ha. destruct (Hnew a Ha) as [Ha'|[-> _]]; [apply Dt in Ha'; lia|lia].
  - intros a j' Ha Hon. destruct (Hnew a Ha) as [Ha'|[He Ho]]; [specialize (Do a j' Ha' Hon); lia|]. rewrite (Ho _ Hon). lia.
  - intros b b' j' F F' Hb Hb'. destruct (Hnd _ _ _ Hb) as (_&_&H1), (Hnd _ _ _ Hb') as (_&_&H2). by eapply Di.
  - intros j' b Hb Hd l Hl. destruct (Hnew b Hb) as [Hb'|[He Ho]].
    + destruct (Da j' b Hb' Hd l Hl) as (b'&?&?). exists b'. auto.
    + assert (j' = j) as -> by (apply Ho; destruct Hd as [? _]; unfold on; auto). exists (Acc (nxt c) t l Write). split_and!; [|done..].
      unfold destroy. cbn. rewrite Hid, !elem_of_cons in *. rewrite elem_of_nil in Hl. destruct Hl as [->|[->|[->|[]]]]; auto 6.
Qed.

(** the same entries *)
Definition ids (c c' : hb) : Prop := ∀ h, is_Some (nd c' !! h) ↔ is_Some (nd c !! h).
Lemma idn_live c h : is_Some (nd c !! h) → ∃ E, nd c !! h = Some (idn c h, E).
Proof. intros [[j E] Hj]. exists E. unfold idn. by rewrite Hj. Qed.

Lemma D_learn t E c : D c → D (learn t E c).
Proof. intros H. eapply D_same; [done|done|done|]. simpl. eauto. Qed.
Lemma D_used t x c : D c → D (used t x c) ∧ ids c (used t x c).
Proof. intros H. unfold used. destruct (ob c !! x) as [[w r]|]; [|done]. split; [|done]. eapply D_same; [done|done|done|]. simpl. eauto. Qed.
Lemma D_rmw acq rls t h c : D c → is_Some (nd c !! h) → D (rmw acq rls t h c) ∧ ids c (rmw acq rls t h c).
Proof.
  intros H Hh. destruct (idn_live c h Hh) as [E Hj]. set (c1 := emit t [(MRef (idn c h), Atomic)] c).
  assert (D1 : D c1) by (apply D_emit; [done|]; intros l ->%elem_of_list_singleton; simpl; unfold live_acc; cbn; eauto).
  pose proof (rmw_rest acq rls t h c) as (_&_&_&Rn&Rt). pose proof (nd_rmw acq rls t h c _ E Hj) as Rd. split.
  - eapply (D_same c1); [done|done|done|]. intros b j E' Hb. rewrite Rd in Hb. destruct rls; [|by exists E'].
    apply lookup_insert_Some in Hb as [[<- [= <- <-]]|[_ Hb]]; [by exists E|by exists E'].
  - intros b. rewrite Rd. destruct rls; [|done]. destruct (decide (b = h)) as [->|Hne]; [rewrite lookup_insert; split; [done|by eexists]|by rewrite lookup_insert_ne].
Qed.
Lemma D_touch t x h c : D c → is_Some (nd c !! h) → D (touch t x h c) ∧ ids c (touch t x h c).
Proof.
  intros H Hh. destruct (idn_live c h Hh) as [E Hj]. unfold touch. set (c1 := emit t _ c).
  assert (D1 : D c1) by (apply D_emit; [done|]; intros l ->%elem_of_list_singleton; simpl; unfold live_acc; cbn; eauto).
  destruct (D_used t x c1 D1) as [D2 I2]. done.
Qed.

Section Life.
  Context {K A R V : Type}.
  Context (P : policy K A R V) (FS : factory K) (cfg : config) (inc_sync : bool).
  Context (eqv : K → K → bool) (good : R → Prop).
  Context (Heq : equivalence eqv) (HP : policy_ok eqv good P) (HF : factory_spec eqv FS).
  Context (t0 : tid).
  Notation state := (state (R:=R) (K:=K) (A:=A) FS).
  Notation instr := (instr (K:=K) (A:=A) (R:=R)).
  Notation Inv := (Inv P FS cfg eqv good HF t0).
  Notation J := (J P FS cfg t0).
  Notation HInv := (HInv P FS cfg eqv good HF t0).
  Notation allowed := (allowed cfg t0).
  Notation hexec := (hexec P FS cfg inc_sync true true).
  Notation hstart := (hstart P FS cfg inc_sync).
  Notation hstep := (hstep P FS cfg inc_sync true true).
  Notation hrun := (hrun P FS cfg inc_sync true true).
  Implicit Types (s : state) (c : hb) (h : addr) (i : instr).

  Lemma exec_D s c t i rest ch s' : Inv s → J s c → D c → exec P FS cfg s t i rest ch = Next s' → D (hexec s t i ch c).
  Proof.
    intros HI HJ HD He.
    assert (Hnd : ∀ h n, entry s h = Some n → is_Some (nd c !! h)) by (intros h n Hn; apply (j_nd _ _ _ _ _ _ HJ); by eexists).
    assert (Hem : ∀ h n l k, entry s h = Some n → l = MRep (idn c h) ∨ l = MDel (idn c h) → D (emit t [(l, k)] c)).
    { intros h n l k Hn Hl. destruct (idn_live c h (Hnd h n Hn)) as [E Hj]. apply D_emit; [done|]. intros l' ->%elem_of_list_singleton.
      unfold live_acc. destruct Hl as [->| ->]; cbn; eauto. }
    destruct i as [x p r|x p r|x h p ks k|x h ks k|x h ks k| |h|h|h|h|x h k|x]; simpl in He; cbn [CoreHb.hexec].
    - destruct (lck cfg); [by apply D_learn|done].
    - set (ls := (MFac, Write) :: _). assert (D1 : D (emit t ls c)).
      { apply D_emit; [done|]. intros l [->|Hl]%elem_of_cons; [done|]. apply elem_of_list_fmap in Hl as ([h [j E]]&->&Hl).
        apply elem_of_map_to_list in Hl. unfold live_acc. cbn. eauto. }
      destruct (c_throw ch); [done|]. destruct (f_find FS (cont s) (kview P s) (p_key P r)); [done|by apply D_create|done].
    - destruct (entry s h) as [n|] eqn:Hn; [|done]. destruct (p_val P (n_rep n)); [by eapply Hem; [|left]|].
      destruct (c_throw ch); [apply D_destroy; [done|by eapply Hnd]|by eapply Hem; [|left]].
    - unfold CoreHb.incr. destruct (trk cfg); [|done]. destruct (entry s h) as [n|] eqn:Hn; [|done]. apply D_rmw; [done|by eapply Hnd].
    - destruct (entry s h) as [n|] eqn:Hn; [|done]. by eapply Hem; [|right].
    - destruct (lock s) as [[? [|[]]]|]; try done. eapply D_same; [done|done|done|]. simpl. eauto.
    - unfold CoreHb.decr. destruct (trk cfg); [|done]. destruct (entry s h) as [n|] eqn:Hn; [|done]. apply D_rmw; [done|by eapply Hnd].
    - destruct (lck cfg); [by apply D_learn|done].
    - destruct (entry s h) as [n|] eqn:Hn; [|done]. assert (D1 : D (emit t [(MDel (idn c h), Write)] c)) by (by eapply Hem; [|right]).
      case_decide; [|done]. apply D_destroy; [done|]. by eapply Hnd.
    - done.
    - eapply D_same; [done|done|done|]. simpl. eauto.
    - done.
  Qed.

  Lemma live_nd s c y h : Inv s → J s c → live s y = Some h → is_Some (nd c !! h).
  Proof. intros HI HJ Hy. destruct (live_entry _ _ _ _ _ _ _ _ _ _ HI Hy) as (n&Hn&_). apply (j_nd _ _ _ _ _ _ HJ). by eexists. Qed.

  Lemma hcopy_D s c t y : D c → (∀ h, live s y = Some h → is_Some (nd c !! h)) → D (hcopy FS cfg inc_sync s t y c) ∧ ids c (hcopy FS cfg inc_sync s t y c).
  Proof.
    intros HD Hy. unfold hcopy. destruct (live s y) as [h|]; [|done]. specialize (Hy h eq_refl). unfold CoreHb.incr.
    destruct (trk cfg); [|destruct (D_used t y (learn t (made c y) c)) as [D2 I2]; [by apply D_learn|]; split; [done|]; intros b; by rewrite (I2 b)]. destruct (D_rmw inc_sync inc_sync t h (learn t (made c y) c)) as [D1 I1]; [by apply D_learn|done|].
    destruct (D_used t y _ D1) as [D2 I2]. split; [done|]. intros b. by rewrite (I2 b).
  Qed.

  Lemma hinner_D s t x path : ∀ h c, D c → (∀ b n, entry s b = Some n → is_Some (nd c !! b)) → is_Some (nd c !! h) →
    (∀ b n h', entry s b = Some n → h' ∈ p_kids P (n_rep n) → ∃ n', entry s h' = Some n') → D (hinner P FS cfg inc_sync s t x h path c).
  Proof.
    induction path as [|j path IH]; intros h c HD He Hh Hk; cbn [hinner].
    - apply D_used. unfold CoreHb.incr. destruct (trk cfg); [by apply D_rmw|done].
    - destruct (D_touch t x h c HD Hh) as [D1 I1].
      destruct (entry s h) as [n|] eqn:Hn; [|done]. destruct (p_kids P (n_rep n) !! j) as [h'|] eqn:Hj; [|done]. apply elem_of_list_lookup_2 in Hj.
      destruct (Hk h n h' Hn Hj) as [n' Hn']. apply IH; [done| |by apply I1; eapply He|done]. intros b m Hb. apply I1. by eapply He.
  Qed.

  Lemma start_D s c t o : Inv s → J s c → D c → D (hstart s t o c).
  Proof.
    intros HI HJ HD. assert (Hl : ∀ y h, live s y = Some h → is_Some (nd c !! h)) by (intros y h; by apply live_nd).
    assert (Hf : ∀ x c', D c' → D (fresh_ob t x c')) by (intros x c' H; eapply D_same; [done|done|done|]; simpl; eauto).
    destruct o as [x p ys|x y|x y|x y|x|x|x y path]; simpl.
    - clear HJ. revert c HD Hl. induction ys as [|y ys IH]; intros c HD Hl; simpl; [done|].
      destruct (hcopy_D s c t y HD (Hl y)) as [D1 I1]. apply IH; [done|]. intros z h Hz. apply I1. eauto.
    - apply Hf. apply hcopy_D; [done|]. intros h Hh. eauto.
    - apply Hf. apply hcopy_D; [by apply D_learn|]. intros h Hh. simpl. eauto.
    - by apply Hf, Hf, D_learn.
    - apply (D_same (learn t (uses c x) c)); [by apply D_learn|done|done|]. simpl. eauto.
    - destruct (live s x) as [h|] eqn:Hx; [|done]. apply D_touch; [by apply D_learn|]. simpl. eauto.
    - destruct (live s y) as [h|] eqn:Hy; [|done]. apply Hf, hinner_D; [by apply D_learn| |simpl; eauto|].
      + intros b n Hb. apply (j_nd _ _ _ _ _ _ HJ). by eexists.
      + intros b n h' Hb Hk. destruct (i_hnd _ _ _ _ _ (i_C _ _ _ _ _ _ _ _ HI) h') as (n'&Hn'&_); [by eapply kid_cnt|]. eauto.
  Qed.

  Lemma walk_D s t x path : ∀ h c, D c → (∀ b n, entry s b = Some n → is_Some (nd c !! b)) → is_Some (nd c !! h) →
    (∀ b n h', entry s b = Some n → h' ∈ p_kids P (n_rep n) → ∃ n', entry s h' = Some n') → D (walk P FS s t x h path c).
  Proof.
    induction path as [|j path IH]; intros h c HD He Hh Hk; cbn [walk]; destruct (D_touch t x h c HD Hh) as [D1 I1]; [done|].
    destruct (entry s h) as [n|] eqn:Hn; [|done]. destruct (p_kids P (n_rep n) !! j) as [h'|] eqn:Hj; [|done]. apply elem_of_list_lookup_2 in Hj.
    destruct (Hk h n h' Hn Hj) as [n' Hn']. apply IH; [done| |by apply I1; eapply He|done]. intros b m Hb. apply I1. by eapply He.
  Qed.

  Lemma hstep_D sc l sc' : HInv sc → D sc.2 → hstep sc l = Some sc' → D sc'.2.
  Proof.
    destruct sc as [s c]. intros [HI HJ] HD. simpl in HI, HJ, HD. destruct l as [l|t u|t x path]; simpl.
    - destruct (step P FS cfg s l) as [s'| |] eqn:El; [|intros [= <-]; done|done]. intros [= <-]. simpl. destruct l as [t o|t ch]; simpl in *.
      + by apply start_D.
      + destruct (stack s t) as [|i rest] eqn:Hst; [done|]. by eapply exec_D.
    - intros [= <-]. by apply D_learn.
    - destruct (stack s t); [|intros [= <-]; done]. destruct (live s x) as [h|] eqn:Hx; intros [= <-]; [|done]. simpl.
      apply walk_D; [by apply D_learn| | |].
      + intros b n Hb. apply (j_nd _ _ _ _ _ _ HJ). by eexists.
      + simpl. by eapply live_nd.
      + intros b n h' Hb Hk. destruct (i_hnd _ _ _ _ _ (i_C _ _ _ _ _ _ _ _ HI) h') as (n'&Hn'&_); [by eapply kid_cnt|]. eauto.
  Qed.

  Lemma D_init : D hinit.
  Proof.
    assert (Ht : ∀ a : acc, a ∉ tr hinit) by (intros a; apply not_elem_of_nil). assert (Hn : ∀ h, nd hinit !! h = None) by (intros h; apply lookup_empty).
    split.
    - intros h *. by rewrite Hn.
    - intros j a b Ha. by destruct (Ht a).
    - intros j a Ha. by destruct (Ht a).
    - intros h *. by rewrite Hn.
    - intros a Ha. by destruct (Ht a).
    - intros a j Ha. by destruct (Ht a).
    - intros h *. by rewrite Hn.
    - intros j b Hb. by destruct (Ht b).
  Qed.

  Lemma hrun_life ls sc : Forall (λ l, allowed (hlabel_tid l)) ls → hrun (init FS, hinit) ls = Some sc → HInv sc ∧ D sc.2.
  Proof.
    intros Hal. assert (G : ∀ sc0, HInv sc0 → D sc0.2 → hrun sc0 ls = Some sc → HInv sc ∧ D sc.2).
    { clear -Heq HP Hal. induction Hal as [|l ls Hl _ IH]; intros sc0 H0 D0; simpl; [by intros [= <-]|].
      destruct (hstep_inv P FS cfg inc_sync eqv good Heq HP HF t0 sc0 l H0 Hl) as (sc1&E1&H1). rewrite E1. apply IH; [done|]. exact (hstep_D sc0 l sc1 H0 D0 E1). }
    apply G; [by apply hinit_inv|apply D_init].
  Qed.
End Life.
