(** C43, C44: template arguments of flyweight types. *)
From Verif Require Import Config.
From Coq Require Import Eqdep_dec.
From Verif Require Core Policies Instances.

Local Arguments deduce : simpl never.
Section props.
  Context (strict : bool) (is : cat → ty → bool) (is_value0 : nat → bool).

  (** what the arguments say, without regard to their order *)
  Definition belongs (a : arg) (c : cat) : Prop := match a with Key c' _ => c' = c | Plain t => is c t = true end.
  Definition type_of (a : arg) : ty := match a with Key _ t | Plain t => t end.
  Definition given (args : list arg) (c : cat) (t : ty) : Prop := ∃ a, a ∈ args ∧ belongs a c ∧ type_of a = t.
  (** no type is of two categories *)
  Definition exclusive : Prop := ∀ t c c', is c t = true → is c' t = true → c = c'.
  (** at most five arguments, each of some category, none of the same *)
  Definition well_formed (args : list arg) : Prop :=
    length args ≤ 5 ∧ (∀ a, a ∈ args → ∃ c, belongs a c) ∧
    ∀ i j a a' c, args !! i = Some a → args !! j = Some a' → belongs a c → belongs a' c → i = j.

  Definition setting (x : config) (c : cat) : option ty :=
    match c with Tag => c_tag x | Tracking => Some (c_tracking x) | Factory => Some (c_factory x) | Locking => Some (c_locking x) | Holder => Some (c_holder x) end.
  (** the documented defaults *)
  Definition documented (c : cat) : option ty :=
    match c with Tag => None | Tracking => Some refcounted | Factory => Some hashed_factory | Locking => Some simple_locking | Holder => Some static_holder end.

  Lemma deduce_sound used t c : deduce used (signature is) t = Some c → used c = false ∧ is c t = true.
  Proof. unfold signature, deduce. repeat case_match; intros [= <-]; rewrite andb_true_iff, negb_true_iff in *; tauto. Qed.
  Lemma deduce_complete used t c : exclusive → used c = false → is c t = true → deduce used (signature is) t = Some c.
  Proof.
    intros Hx Hu Hc. destruct (deduce used (signature is) t) as [c'|] eqn:E; [apply deduce_sound in E as [_ E]; f_equal; eauto|].
    exfalso. unfold signature, deduce in E. repeat case_match; try done. destruct c; rewrite Hu, Hc in *; done.
  Qed.
  Definition used_in (pack : gmap cat ty) (c : cat) : bool := if pack !! c then true else false.
  Lemma used_in_false pack c : used_in pack c = false ↔ pack !! c = None.
  Proof. unfold used_in. by destruct (pack !! c). Qed.

  Lemma bind_ok args : exclusive → ∀ pack, (∀ a, a ∈ args → ∃ c, belongs a c) →
    (∀ i j a a' c, args !! i = Some a → args !! j = Some a' → belongs a c → belongs a' c → i = j) →
    (∀ a c, a ∈ args → belongs a c → pack !! c = None) →
    ∃ pack', bind strict is pack args = Some pack' ∧ ∀ c, (∀ t, given args c t → pack' !! c = Some t) ∧ ((∀ t, ¬ given args c t) → pack' !! c = pack !! c).
  Proof.
    intros Hx. induction args as [|a args IH]; intros pack Hc Hd Hp; simpl.
    { exists pack. split; [done|]. intros c. split; [|done]. intros t (a&Ha%elem_of_nil&_). done. }
    destruct (Hc a) as [ca Hca]; [by left|]. assert (pack !! ca = None) as Hnone by (eapply Hp; [by left|done]).
    destruct (IH (<[ca:=type_of a]> pack)) as (pack'&Hb&Hpack').
    { intros a' Ha'. apply Hc. by right. }
    { intros i j a1 a2 c H1 H2 B1 B2. specialize (Hd (S i) (S j) a1 a2 c H1 H2 B1 B2). lia. }
    { intros a' c Ha' Hb'. destruct (decide (c = ca)) as [->|Hne]; [|rewrite lookup_insert_ne by done; eapply Hp; [by right|done]].
      exfalso. apply elem_of_list_lookup in Ha' as [i Hi]. by specialize (Hd 0 (S i) a a' ca eq_refl Hi Hca Hb'). }
    exists pack'. split.
    - destruct a as [c t|t]; simpl in *; [by subst; rewrite Hnone|]. change (λ c, if pack !! c then true else false) with (used_in pack).
      rewrite (deduce_complete _ _ ca) by (try done; by apply used_in_false). done.
    - intros c. destruct (Hpack' c) as [Hg Hn]. split.
      + intros t (a'&[->|Ha']%elem_of_cons&Hb'&Ht); [|apply Hg; by exists a'].
        assert (c = ca) as ->. { destruct a; simpl in *; [congruence|eauto]. }
        rewrite Hn; [by rewrite lookup_insert, Ht|]. intros t' (a2&Ha2&Hb2&_). apply elem_of_list_lookup in Ha2 as [i Hi]. by specialize (Hd 0 (S i) a a2 ca eq_refl Hi Hca Hb2).
      + intros Hno. rewrite Hn; [|intros t (a'&?&?&?); apply (Hno t); exists a'; split_and!; try done; by right].
        rewrite lookup_insert_ne; [done|]. intros <-. apply (Hno (type_of a)). exists a. split_and!; try done. by left.
  Qed.
  Lemma unmatched_none args : (∀ a, a ∈ args → ∃ c, belongs a c) ↔ unmatched is args = None.
  Proof.
    induction args as [|a args IH]; simpl; [split; [done|]; by intros _ a ?%elem_of_nil|]. 
    assert (∀ t, matches_none is t = true ↔ ∀ c, is c t = false) as Hm.
    { intros t. unfold matches_none. rewrite negb_true_iff, !orb_false_iff. split; [intros [[[[]]]] []; done|]. intros H. by rewrite !H. }
    destruct a as [c t|t].
    - rewrite <- IH. split; [intros H a Ha; apply H; by right|]. intros H a [->|Ha]%elem_of_cons; [by exists c|auto].
    - destruct (matches_none is t) eqn:E.
      + rewrite Hm in E. split; [|done]. intros H. destruct (H (Plain t)) as [c Hc]; [by left|]. simpl in Hc. by rewrite E in Hc.
      + rewrite <- IH. split; [intros H a Ha; apply H; by right|]. intros H a [->|Ha]%elem_of_cons; [|auto].
        destruct (is Tag t) eqn:?, (is Tracking t) eqn:?, (is Factory t) eqn:?, (is Locking t) eqn:?, (is Holder t) eqn:?; try (by eexists).
        unfold matches_none in E. by repeat match goal with H : is _ _ = _ |- _ => rewrite H in E end.
  Qed.

  (** C43: every parameter is what was given for it, in whatever position, or
      else its documented default *)
  Theorem C43_resolve t args : exclusive → well_formed args →
    ∃ x, resolve strict is is_value0 t args = Some x ∧ c_value x = value_policy is_value0 t ∧
      ∀ c, (∀ u, given args c u → setting x c = Some u) ∧ ((∀ u, ¬ given args c u) → setting x c = documented c).
  Proof.
    intros Hx (Hlen&Hc&Hd). unfold resolve. rewrite decide_False by lia. destruct (bind_ok args Hx ∅ Hc Hd) as (pack&->&Hp); [done|].
    rewrite (proj1 (unmatched_none args) Hc). eexists. split_and!; [done|done|]. intros c. destruct (Hp c) as [Hg Hn]. split.
    - intros u Hu. apply Hg in Hu. destruct c; simpl; by rewrite Hu.
    - intros Hno. apply Hn in Hno. rewrite lookup_empty in Hno. destruct c; simpl; by rewrite Hno.
  Qed.

  (** C43: the order of the arguments does not matter *)
  Theorem C43_permutation t args args' : exclusive → well_formed args → args ≡ₚ args' → resolve strict is is_value0 t args = resolve strict is is_value0 t args'.
  Proof.
    intros Hx Hw Hperm. assert (well_formed args') as Hw'.
    { destruct Hw as (Hl&Hc&Hd). split_and!; [by rewrite <- Hperm|intros a Ha; apply Hc; by rewrite Hperm|]. intros i j a a' c Hi Hj Hb Hb'.
      destruct (decide (i = j)) as [|Hne]; [done|]. exfalso. 
      symmetry in Hperm. apply Permutation_inj in Hperm as (_&f&Hinj&Hf). rewrite Hf in Hi, Hj. apply Hne, Hinj. eauto. }
    destruct (C43_resolve t args Hx Hw) as (x&->&Hv&Hs), (C43_resolve t args' Hx Hw') as (x'&->&Hv'&Hs'). f_equal.
    assert (∀ c, setting x c = setting x' c) as He.
    { intros c. destruct (Hs c) as [Hg Hn], (Hs' c) as [Hg' Hn'].
      assert (∀ u, given args c u ↔ given args' c u) as Hiff by (intros u; unfold given; by setoid_rewrite Hperm).
      assert ((∃ u, given args c u) ∨ (∀ u, ¬ given args c u)) as [[u Hu]|Hno].
      { clear. induction args as [|a args IH]; [right; by intros u (?&?%elem_of_nil&_)|].
        assert (Decision (belongs a c)) as [Hb|Hb] by (destruct a; simpl; apply _); [left; exists (type_of a), a; split_and!; try done; by left|].
        destruct IH as [(u&a'&?&?)|IH]; [left; exists u, a'; split; [by right|done]|]. right. intros u (a'&[->|Ha]%elem_of_cons&?&?); [done|]. apply (IH u). by exists a'. }
      - rewrite (Hg u Hu). symmetry. apply Hg'. by apply Hiff.
      - rewrite (Hn Hno). symmetry. apply Hn'. intros u Hu. apply (Hno u). by apply Hiff. }
    destruct x, x'. pose proof (He Tag). pose proof (He Tracking). pose proof (He Factory). pose proof (He Locking). pose proof (He Holder). simpl in *. congruence.
  Qed.

  (** C43: an argument of no category is rejected *)
  Theorem C43_unmatched t args u : Plain u ∈ args → (∀ c, is c u = false) → resolve strict is is_value0 t args = None.
  Proof.
    intros Hu Hn. unfold resolve. case_decide; [done|]. destruct (bind strict is ∅ args); [|done]. destruct (unmatched is args) eqn:E; [done|].
    rewrite <- unmatched_none in E. destruct (E _ Hu) as [c Hc]. simpl in Hc. by rewrite Hn in Hc.
  Qed.

  (** C43: exactly which argument lists are rejected *)
  Definition keyword (a : arg) : Prop := match a with Key _ _ => True | Plain _ => False end.
  Definition counts (a : arg) : Prop := keyword a ∨ strict = true.
  Lemma belongs_unique a c c' : exclusive → belongs a c → belongs a c' → c = c'.
  Proof. intros Hx. destruct a; simpl; [congruence|apply Hx]. Qed.
  Lemma bind_none args : exclusive → ∀ pack, bind strict is pack args = None ↔
    ∃ i a, args !! i = Some a ∧ ((∃ c, belongs a c ∧ counts a ∧ (is_Some (pack !! c) ∨ ∃ j a', j < i ∧ args !! j = Some a' ∧ belongs a' c)) ∨ strict = true ∧ ∀ c, ¬ belongs a c).
  Proof.
    intros Hx. induction args as [|a args IH]; intros pack; simpl; [split; [done|]; by intros (i&a&H&_)|].
    assert (∀ pack', (∀ c, is_Some (pack' !! c) ↔ is_Some (pack !! c) ∨ belongs a c) → (∀ c, belongs a c → counts a → pack !! c = None) → (strict = true → ∃ c, belongs a c) →
      bind strict is pack' args = None ↔ ∃ i b, (a :: args) !! i = Some b ∧ ((∃ c, belongs b c ∧ counts b ∧ (is_Some (pack !! c) ∨ ∃ j a', j < i ∧ (a :: args) !! j = Some a' ∧ belongs a' c)) ∨ strict = true ∧ ∀ c, ¬ belongs b c)) as Hstep.
    { intros pack' Hp Hk Hs. rewrite IH. split.
      - intros (i&b&Hi&Hj). exists (S i), b. split; [done|]. destruct Hj as [(c&Hb&Hc&Hj)|Hj]; [left; exists c; split_and!; [done|done|]|by right].
        destruct Hj as [[?|?]%Hp|(j&a'&?&?&?)]; [by left|right; exists 0, a; split_and!; try done; lia|]. right. exists (S j), a'. split_and!; try done; lia.
      - intros ([|i]&b&Hi&Hj); simpl in Hi.
        + simplify_eq. destruct Hj as [(c&Hb&Hc&[[? H]|(j&a'&?&_)])|[Hs' Hj]]; [by rewrite (Hk c Hb Hc) in H|lia|]. destruct (Hs Hs') as [c Hc]. by destruct (Hj c).
        + exists i, b. split; [done|]. destruct Hj as [(c&Hb&Hc&Hj)|Hj]; [left; exists c; split_and!; [done|done|]; rewrite Hp|by right].
          destruct Hj as [?|([|j]&a'&?&Hj&?)]; [by left; left|simpl in Hj; simplify_eq; by left; right|]. right. exists j, a'. split_and!; try done; lia. }
    destruct a as [c t|t].
    - destruct (pack !! c) as [t0|] eqn:E.
      + split; [|done]. intros _. exists 0, (Key c t). split; [done|]. left. exists c. split_and!; [done|by left|left; by rewrite E].
      + apply Hstep; [|intros c' <- _; done|intros _; by exists c]. intros c'. rewrite lookup_insert_is_Some'. simpl. naive_solver.
    - change (λ c, if pack !! c then true else false) with (used_in pack). destruct (deduce (used_in pack) (signature is) t) as [c|] eqn:E.
      + apply deduce_sound in E as [E1 E]. apply used_in_false in E1. apply Hstep; [|intros c' Hc' _; by rewrite (Hx t c' c Hc' E)|intros _; by exists c].
        intros c'. rewrite lookup_insert_is_Some'. simpl. split; [intros [<-|?]; auto|]. intros [?|?]; [by right|left; eauto].
      + assert (∀ c, is c t = true → is_Some (pack !! c)) as Hused.
        { intros c' Hc. destruct (pack !! c') eqn:Ec; [done|]. apply used_in_false in Ec. by rewrite (deduce_complete _ _ c' Hx Ec Hc) in E. }
        destruct strict eqn:Es.
        * split; [|done]. intros _. exists 0, (Plain t). split; [done|]. 
          destruct (matches_none is t) eqn:Em.
          -- right. split; [done|]. intros c Hc. unfold matches_none in Em. rewrite negb_true_iff, !orb_false_iff in Em. destruct Em as [[[[]]]]. destruct c; simpl in Hc; congruence.
          -- left. assert (∃ c, is c t = true) as [c Hc].
             { destruct (is Tag t) eqn:?, (is Tracking t) eqn:?, (is Factory t) eqn:?, (is Locking t) eqn:?, (is Holder t) eqn:?; try (by eexists).
               unfold matches_none in Em. by repeat match goal with H : is _ _ = _ |- _ => rewrite H in Em end. }
             exists c. split_and!; [done|by right|left; auto].
        * apply Hstep; [|intros c' _ [[]|Hst]; congruence|done]. intros c'. simpl. split; [by left|]. intros [?|Hc]; auto.
  Qed.
  Theorem C43_rejected t args : exclusive → resolve strict is is_value0 t args = None ↔
    5 < length args ∨ (∃ u, Plain u ∈ args ∧ ∀ c, is c u = false) ∨
    ∃ i j c a a', j < i ∧ args !! i = Some a ∧ args !! j = Some a' ∧ belongs a c ∧ belongs a' c ∧ counts a.
  Proof.
    intros Hx. unfold resolve. case_decide as Hl; [naive_solver|]. pose proof (bind_none args Hx ∅) as Hb. destruct (bind strict is ∅ args) as [pack|].
    - destruct (unmatched is args) as [u|] eqn:E.
      + split; [|done]. intros _. right. left. clear -E. induction args as [|a args IH]; [done|]. destruct a as [c t|t]; simpl in E.
        { destruct (IH E) as (u'&?&?). exists u'. split; [by right|done]. }
        destruct (matches_none is t) eqn:Em; [|destruct (IH E) as (u'&?&?); exists u'; split; [by right|done]].
        exists t. split; [by left|]. unfold matches_none in Em. rewrite negb_true_iff, !orb_false_iff in Em. destruct Em as [[[[]]]]. by intros [].
      + split; [done|]. intros [?|[(u&Hu&Hn)|(i&j&c&a&a'&?&?&?&?&?&?)]]; [done| |].
        * rewrite <- unmatched_none in E. destruct (E _ Hu) as [c Hc]. simpl in Hc. by rewrite Hn in Hc.
        * assert (@Some (gmap cat ty) pack = None); [|done]. apply Hb. exists i, a. split; [done|]. left. exists c. split_and!; try done. right. by exists j, a'.
    - split; [|done]. intros _. right. destruct (proj1 Hb eq_refl) as (i&a&Hi&[(c&Hbc&Hc&[[? H]|(j&a'&?&?&?)])|[_ Hno]]); [by rewrite lookup_empty in H|right; by exists i, j, c, a, a'|].
      left. destruct a as [c u|u]; [by destruct (Hno c)|]. exists u. split; [by eapply elem_of_list_lookup_2|]. intros c. apply not_true_iff_false, Hno.
  Qed.
  (** in particular, a category given twice is rejected if one of the two, the
      later one, uses the keyword or if Boost.Parameter rejects what is left *)
  Theorem C43_repeated t args i j c a a' : exclusive → j < i → args !! i = Some a → args !! j = Some a' → belongs a c → belongs a' c →
    keyword a ∨ strict = true → resolve strict is is_value0 t args = None.
  Proof. intros Hx ??????. apply C43_rejected; [done|]. right. right. by exists i, j, c, a, a'. Qed.
End props.

Section share.
  Context (strict : bool) (is : cat → ty → bool) (is_value0 : nat → bool).
  (** what parameter [c] is according to the arguments *)
  Definition effective (args : list arg) (c : cat) (u : ty) : Prop :=
    given is args c u ∨ (∀ v, ¬ given is args c v) ∧ documented c = Some u.
  (** C44: two flyweight types use the same core (hence factory, mutex and
      values) iff their value policies, tags and policies are the same *)
  Theorem C44_share t args t' args' : exclusive is → well_formed is args → well_formed is args' →
    ∃ x x', resolve strict is is_value0 t args = Some x ∧ resolve strict is is_value0 t' args' = Some x' ∧
      (x = x' ↔ value_policy is_value0 t = value_policy is_value0 t' ∧ ∀ c u, effective args c u ↔ effective args' c u).
  Proof.
    intros Hx Hw Hw'. destruct (C43_resolve strict is is_value0 t args Hx Hw) as (x&Hr&Hv&Hs), (C43_resolve strict is is_value0 t' args' Hx Hw') as (x'&Hr'&Hv'&Hs').
    exists x, x'. split_and!; [done|done|].
    assert (∀ args x, (∀ c, (∀ u, given is args c u → setting x c = Some u) ∧ ((∀ u, ¬ given is args c u) → setting x c = documented c)) → ∀ c u, effective args c u ↔ setting x c = Some u) as He.
    { clear. intros args x Hs c u. destruct (Hs c) as [Hg Hn]. unfold effective. split; [intros [?|[Hno Hu]]; [auto|by rewrite Hn]|]. intros Hu.
      assert ((∃ u, given is args c u) ∨ (∀ u, ¬ given is args c u)) as [[v Hv]|Hno].
      { clear. induction args as [|a args IH]; [right; by intros u (?&?%elem_of_nil&_)|].
        assert (Decision (belongs is a c)) as [Hb|Hb] by (destruct a; simpl; apply _); [left; exists (type_of a), a; split_and!; try done; by left|].
        destruct IH as [(u&a'&?&?)|IH]; [left; exists u, a'; split; [by right|done]|]. right. intros u (a'&[->|Ha]%elem_of_cons&?&?); [done|]. apply (IH u). by exists a'. }
      - apply Hg in Hv as Hv'. left. congruence.
      - right. split; [done|]. rewrite <- Hn by done. done. }
    split.
    - intros <-. split; [congruence|]. intros c u. by rewrite (He args x), (He args' x).
    - intros [Hvv Heff]. assert (∀ c, setting x c = setting x' c) as Hset.
      { intros c. apply option_eq. intros u. by rewrite <- (He args x), <- (He args' x'). }
      destruct x, x'. pose proof (Hset Tag). pose proof (Hset Tracking). pose proof (Hset Factory). pose proof (Hset Locking). pose proof (Hset Holder). simpl in *. congruence.
  Qed.

  Context (St Op : config → Type) (behave : ∀ c, St c → Op c → outcome (St c)).
  Notation event := (event strict is is_value0 Op).
  Notation states := (states St).
  Notation perform_all := (perform_all strict is is_value0 St Op behave).
  Notation solo := (solo St Op behave).
  Notation ops_of := (ops_of strict is is_value0 Op).
  Lemma upd_eq c x (m : states) : upd St c x m c = x.
  Proof. unfold upd. destruct (decide (c = c)) as [e|]; [|done]. by rewrite (UIP_dec config_eq e eq_refl). Qed.
  Lemma upd_ne c c' x (m : states) : c ≠ c' → upd St c x m c' = m c'.
  Proof. intros H. unfold upd. by destruct (decide (c = c')). Qed.

  (** C44: what the flyweight types of one configuration do is what they do
      when alone, whatever is done through all others *)
  Theorem C44_isolation (es : list event) m :
    match perform_all m es with
    | Goes m' => ∀ c, solo c (m c) (ops_of c es) = Goes (m' c)
    | Undefined => ∃ c, solo c (m c) (ops_of c es) = Undefined
    | Waits => False
    end.
  Proof.
    revert m. induction es as [|e es IH]; intros m; simpl; [done|]. unfold perform.
    assert (∀ c m', (if decide (e_conf _ _ _ _ e = c) then True else m' c = m c) → ∀ r, 
      match decide (e_conf _ _ _ _ e = c) with left p => ∀ r', behave c (m c) (eq_rect _ Op (e_op _ _ _ _ e) c p) = r' → match r' with Goes x => m' c = x | Waits => m' c = m c | Undefined => False end | right _ => True end →
      solo c (m' c) (ops_of c es) = r →
      solo c (m c) (match decide (e_conf _ _ _ _ e = c) with left p => eq_rect _ Op (e_op _ _ _ _ e) c p :: ops_of c es | right _ => ops_of c es end) = r) as Hgo.
    { intros c m' H1 r. destruct (decide (e_conf _ _ _ _ e = c)) as [p|]; [|by rewrite H1]. simpl. intros H2. specialize (H2 _ eq_refl). destruct (behave c (m c) _); [by rewrite H2|by rewrite H2|done]. }
    destruct (behave (e_conf _ _ _ _ e) (m (e_conf _ _ _ _ e)) (e_op _ _ _ _ e)) as [x| |] eqn:Eb.
    - specialize (IH (upd St (e_conf _ _ _ _ e) x m)). assert (∀ c r, solo c (upd St (e_conf _ _ _ _ e) x m c) (ops_of c es) = r → 
        solo c (m c) (match decide (e_conf _ _ _ _ e = c) with left p => eq_rect _ Op (e_op _ _ _ _ e) c p :: ops_of c es | right _ => ops_of c es end) = r) as H.
      { intros c r. apply Hgo; destruct (decide (e_conf _ _ _ _ e = c)) as [p|Hne]; try done; [by apply upd_ne|]. destruct p. simpl. intros r' <-. rewrite Eb. by rewrite upd_eq. }
      destruct (perform_all _ es); [intros c; by apply H|done|]. destruct IH as [c Hc]. exists c. by apply H.
    - specialize (IH m). assert (∀ c r, solo c (m c) (ops_of c es) = r → 
        solo c (m c) (match decide (e_conf _ _ _ _ e = c) with left p => eq_rect _ Op (e_op _ _ _ _ e) c p :: ops_of c es | right _ => ops_of c es end) = r) as H.
      { intros c r. apply Hgo; destruct (decide (e_conf _ _ _ _ e = c)) as [p|Hne]; try done. destruct p. simpl. intros r' <-. by rewrite Eb. }
      destruct (perform_all _ es); [intros c; by apply H|done|]. destruct IH as [c Hc]. exists c. by apply H.
    - exists (e_conf _ _ _ _ e). destruct (decide (e_conf _ _ _ _ e = e_conf _ _ _ _ e)) as [p|]; [|done]. rewrite (UIP_dec config_eq p eq_refl). simpl. by rewrite Eb.
  Qed.
  (** in particular nothing done through other flyweight types changes it *)
  Theorem C44_untouched (es : list event) m m' c : perform_all m es = Goes m' → (∀ e, e ∈ es → e_conf _ _ _ _ e ≠ c) → m' c = m c.
  Proof.
    intros H Hes. pose proof (C44_isolation es m) as Hi. rewrite H in Hi. specialize (Hi c).
    assert (ops_of c es = []) as E. { clear -Hes. induction es as [|e es IH]; simpl; [done|]. destruct (decide (e_conf _ _ _ _ e = c)) as [Hc|]; [by destruct (Hes e); [left|]|]. apply IH. intros e' He'. apply Hes. by right. }
    rewrite E in Hi. simpl in Hi. congruence.
  Qed.
End share.

(** C44 for the machine of [Core.v]: in a program with any number of
    flyweight types, each core behaves as the machine of its own policies, so
    all that is proved of that machine holds of it *)
Section core_program.
  Context (strict : bool) (is : cat → ty → bool) (is_value0 : nat → bool).
  Context (K A R V : config → Type) (P : ∀ c, Core.policy (K c) (A c) (R c) (V c)) (FS : ∀ c, Factory.factory (K c)) (cfg : config → Core.config).
  Definition core_state (c : config) : Type := Core.state (K:=K c) (A:=A c) (R:=R c) (FS c).
  Definition core_label (c : config) : Type := Core.label (A:=A c).
  Definition core_behave (c : config) (s : core_state c) (l : core_label c) : outcome (core_state c) :=
    match Core.step (P c) (FS c) (cfg c) s l with Core.Next s' => Goes s' | Core.Stuck => Waits | Core.Undef => Undefined end.
  Theorem C44_cores (es : list (event strict is is_value0 core_label)) m m' :
    perform_all strict is is_value0 core_state core_label core_behave m es = Goes m' →
    ∀ c, Core.run (P c) (FS c) (cfg c) (m c) (ops_of strict is is_value0 core_label c es) = Core.Next (m' c).
  Proof.
    intros H c. pose proof (C44_isolation strict is is_value0 core_state core_label core_behave es m) as Hi. rewrite H in Hi. specialize (Hi c).
    revert Hi. generalize (ops_of strict is is_value0 core_label c es) as ls, (m c) as s, (m' c) as s'. clear. intros ls. induction ls as [|l ls IH]; intros s s'; simpl; [by intros [= ->]|].
    unfold core_behave at 1. destruct (Core.step (P c) (FS c) (cfg c) s l) as [s1| |]; [apply IH|apply IH|done].
  Qed.
End core_program.

(** ** Refuted parts and examples *)
(** the predicates for the library's own types and two user types (12: a
    tracking policy, 13: a user class of no category), 14: a class made both
    tracking policy and factory specifier by its user *)
Definition is_ex (c : cat) (t : ty) : bool :=
  match c, t with
  | Tracking, Class 0 | Factory, Class 1 | Locking, Class 2 | Holder, Class 3 => true
  | Tracking, Class 10 => true          (* no_tracking *)
  | Factory, Class 11 => true           (* set_factory<> *)
  | Tracking, Class 12 => true
  | _, _ => false
  end.
Definition is_ex2 (c : cat) (t : ty) : bool := match c, t with Tracking, Class 14 | Factory, Class 14 => true | _, _ => is_ex c t end.
Lemma ex_exclusive : exclusive is_ex.
Proof. intros t c c' H H'. destruct c, t as [n|]; simpl in H; try done; repeat (destruct n as [|n]; try done); by destruct c'. Qed.

(** C43: a repeated category is not rejected by flyweight.hpp itself: if
    Boost.Parameter lets it pass, the second argument is dropped, and the order
    decides *)
Theorem C43_repeated_refuted : ∃ t args args', args ≡ₚ args' ∧
  (∃ i j a a' c, i ≠ j ∧ args !! i = Some a ∧ args !! j = Some a' ∧ belongs is_ex a c ∧ belongs is_ex a' c) ∧
  is_Some (resolve false is_ex (λ _, false) t args) ∧ resolve false is_ex (λ _, false) t args ≠ resolve false is_ex (λ _, false) t args'.
Proof.
  exists (Class 20), [Plain (Class 10); Plain (Class 12)], [Plain (Class 12); Plain (Class 10)]. split_and!.
  - apply perm_swap.
  - exists 0, 1, (Plain (Class 10)), (Plain (Class 12)), Tracking. by split_and!.
  - vm_compute. by eexists.
  - by vm_compute.
Qed.
(** C43: with a type of two categories the order matters *)
Theorem C43_ambiguous_refuted strict : ∃ t args args', args ≡ₚ args' ∧ is_Some (resolve strict is_ex2 (λ _, false) t args) ∧
  resolve strict is_ex2 (λ _, false) t args ≠ resolve strict is_ex2 (λ _, false) t args'.
Proof.
  exists (Class 20), [Plain (Class 12); Plain (Class 14)], [Plain (Class 14); Plain (Class 12)]. split_and!; [apply perm_swap|destruct strict; vm_compute; by eexists|by destruct strict; vm_compute].
Qed.

Example ex_well_formed : well_formed is_ex [Key Holder (Class 30); Plain (Class 11); Key Tag (Class 31); Plain (Class 12)].
Proof.
  split_and!; [cbn; lia| |].
  - intros a Ha. rewrite !elem_of_cons, elem_of_nil in Ha. destruct Ha as [->|[->|[->|[->|[]]]]]; [by exists Holder|by exists Factory|by exists Tag|by exists Tracking].
  - intros i j a a' c Hi Hj. destruct i as [|[|[|[|i]]]]; simpl in Hi; simplify_eq; destruct j as [|[|[|[|j]]]]; simpl in Hj; simplify_eq; try done; destruct c; simpl; congruence.
Qed.
Example ex_resolve : resolve false is_ex (λ _, false) (Class 20) [Key Holder (Class 30); Plain (Class 11); Key Tag (Class 31); Plain (Class 12)] =
  Some (Config (DefaultValue (Class 20)) (Some (Class 31)) (Class 12) (Class 11) simple_locking (Class 30)).
Proof. reflexivity. Qed.
Example ex_default : resolve false is_ex (λ _, false) (Class 20) [] = resolve false is_ex (λ _, false) (DefaultValue (Class 20)) [Plain hashed_factory; Key Tracking refcounted].
Proof. reflexivity. Qed.
Example ex_unmatched : resolve false is_ex (λ _, false) (Class 20) [Plain (Class 11); Plain (Class 13)] = None.
Proof. reflexivity. Qed.
Example ex_keyword_twice : resolve false is_ex (λ _, false) (Class 20) [Plain (Class 10); Key Tracking (Class 40)] = None.
Proof. reflexivity. Qed.

(** two types with one configuration and one with another, all with the
    policies of [Instances.v] *)
Definition exE := event false is_ex (λ _, false) (λ _, Core.label (A:=nat)).
Definition exev (t : ty) (args : list arg) (c : config) (p : resolve false is_ex (λ _, false) t args = Some c) (ls : list (Core.label (A:=nat))) : list exE :=
  map (λ l, Event false is_ex (λ _, false) (λ _, Core.label (A:=nat)) t args c p l) ls.
Definition exc1 := Config (DefaultValue (Class 20)) None (Class 0) (Class 1) (Class 2) (Class 3).
Definition exc2 := Config (DefaultValue (Class 20)) (Some (Class 31)) (Class 0) (Class 1) (Class 2) (Class 3).
Definition exes : list exE :=
  exev (Class 20) [] exc1 eq_refl (Instances.call 1 (Core.ONew 0 7 []) 100) ++
  exev (Class 20) [Key Tag (Class 31)] exc2 eq_refl (Instances.call 1 (Core.ONew 5 7 []) 200) ++
  exev (Class 20) [Plain (Class 1); Plain (Class 0)] exc1 eq_refl (Instances.call 1 (Core.ONew 1 7 []) 300).
Definition ex_view (o : outcome (states (core_state (λ _, Instances.ikey) (λ _, nat) (λ _, Policies.prep (K:=Instances.ikey) (V:=nat)) (λ _, Instances.iFS)))) : option (list (option (option nat)) * nat * nat) :=
  match o with
  | Goes m => Some ([Core.vars (m exc1) !! 0; Core.vars (m exc1) !! 1; Core.vars (m exc1) !! 5; Core.vars (m exc2) !! 5],
                    length (map_to_list (Core.heap (m exc1))), length (map_to_list (Core.heap (m exc2))))
  | _ => None
  end.
Example ex_isolation : ex_view (perform_all false is_ex (λ _, false) _ _ (core_behave _ _ _ _ (λ _, Instances.iP) (λ _, Instances.iFS) (λ _, Instances.rc)) (λ _, Core.init Instances.iFS) exes) =
  Some ([Some (Some 100); Some (Some 100); None; Some (Some 200)], 1, 1).
Proof. vm_compute. reflexivity. Qed.

Print Assumptions C43_resolve.
Print Assumptions C43_permutation.
Print Assumptions C43_unmatched.
Print Assumptions C43_rejected.
Print Assumptions C43_repeated.
Print Assumptions C43_repeated_refuted.
Print Assumptions C43_ambiguous_refuted.
Print Assumptions C44_share.
Print Assumptions C44_isolation.
Print Assumptions C44_untouched.
Print Assumptions C44_cores.
