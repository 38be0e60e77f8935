(** The insertion functions of [Lifetime.v] over any value policy that
    satisfies the contract of [LifetimeProofs.v]. *)
From Verif Require Export LifetimeProofs.

Section Insert.
  Context {K V : Type} (eqv : K → K → bool).
  Notation mem := (mem (K:=K) (V:=V)).
  Notation rep := (rep (K:=K) (V:=V)).
  Context (P : pol (K:=K) (V:=V)) (val : K → V) (ok : rep → Prop) (built : rep → bool)
    (rkey : rep → option K) (rval : rep → option V) (hv early : bool) (kof : V → K).
  Context (HP : pol_ok P val ok built rkey rval hv early kof).
  Implicit Types (m : mem) (R : gmap nat rep) (F : list nat) (r : rep) (k : K) (v : V).

  Definition good R F : Prop :=
    (∀ i r, R !! i = Some r → ok r) ∧ NoDup F ∧
    ∀ h, h ∈ F → ∃ r k, R !! h = Some r ∧ built r = true ∧ rkey r = Some k ∧
      ∃ v, rval r = Some v ∧ (v = val k ∨ hv = true ∧ k = kof v).
  (** entry [h] has a key equivalent to [k] *)
  Definition has R F k h : Prop :=
    h ∈ F ∧ ∃ r k', R !! h = Some r ∧ rkey r = Some k' ∧ eqv k' k = true.
  Definition absent R F k : Prop :=
    ∀ h r k', h ∈ F → R !! h = Some r → rkey r = Some k' → eqv k' k = false.
  Definition stored r k v : Prop :=
    ok r ∧ built r = true ∧ rval r = Some v ∧ (rkey r = Some k ∧ v = val k ∨ hv = true ∧ rkey r = Some (kof v)).
  Definition wants (w : how) k v m : Prop :=
    match w with
    | ByKey => v = val k
    | ByCopy a | ByMove a => hv = true ∧ k = kof v ∧ (early = false → args m !! a = Some (Some v))
    end.
  Definition margs (w : how) m : gmap nat (option V) :=
    match w with ByMove a => if early then args m else <[a:=None]> (args m) | _ => args m end.

  Lemma find_key_wp k m l R F : good R F → (∀ h r, R !! h = Some r → reps m !! h = Some r) → (∀ h, h ∈ l → h ∈ F) →
    wp (find_key eqv P l k) m
      (λ o m', m' = m ∧ match o with
         | Some h => h ∈ l ∧ has R F k h
         | None => absent R l k end) (λ _, False).
  Proof.
    intros (Hok&Hnd&HF) HR. induction l as [|h l IH]; intros Hl; simpl.
    { apply wp_ret. split; [done|]. intros h r k' Hh. set_solver. }
    destruct (HF h) as (r&k'&Hr&Hb&Hk&_); [set_solver|].
    apply wp_bind. intros c. rewrite (ok_key _ _ _ _ _ _ _ _ _ HP h r m (HR _ _ Hr) (Hok _ _ Hr) c). rewrite Hk.
    destruct (eqv k' k) eqn:E.
    - apply wp_ret. split; [done|]. split; [set_solver|]. split; [set_solver|]. eauto.
    - eapply wp_mono; [apply IH; set_solver| |done]. intros o m' [-> Ho]. split; [done|]. destruct o as [h'|].
      + split; [set_solver|]. apply Ho.
      + intros h' r' k2 Hh Hr' Hk'. apply elem_of_cons in Hh as [->|Hh]; [congruence|]. by eapply Ho.
  Qed.

  (** where an insertion leaves the temporary entry [e] and the factory *)
  Lemma insert_and_visit_wp e w m R F re k v :
    Cnt m → reps m = <[e:=re]> R → R !! e = None → fac m = F → good R F →
    ok re → built re = early → rkey re = Some k → wants w k v m →
    wp (insert_and_visit eqv P e w) m
      (λ h m', Cnt m' ∧ ∃ re', ok re' ∧
        ((has R F k h ∧ reps m' = <[e:=re']> R ∧ fac m' = F ∧ args m' = args m) ∨
         (absent R F k ∧ R !! h = None ∧ h ≠ e ∧ (∃ r, stored r k v ∧ reps m' = <[h:=r]> (<[e:=re']> R)) ∧
          fac m' = h :: F ∧ args m' = margs w m)))
      (λ m', Cnt m' ∧ ∃ re', ok re' ∧ reps m' = <[e:=re']> R ∧ fac m' = F ∧ (args m' = args m ∨ args m' = margs w m)).
  Proof.
    intros HC HR He HFm Hg Hok Hb Hk Hw. pose proof Hg as (Hoks&Hnd&HF).
    assert (HeF : e ∉ F). { intros Hin. destruct (HF e Hin) as (?&?&?&_). congruence. }
    assert (Hee : reps m !! e = Some re) by (by rewrite HR, lookup_insert).
    assert (Hsub : ∀ h r, R !! h = Some r → reps m !! h = Some r).
    { intros h r Hr. rewrite HR, lookup_insert_ne; [done|]. congruence. }
    assert (Hother : ∀ w', w' = w → w' = ByKey ∨ hv = true).
    { intros w' ->. destruct w; [by left|right; apply Hw..]. }
    apply wp_bind, wp_bind, wp_bind. intros c. rewrite (ok_key _ _ _ _ _ _ _ _ _ HP e re m Hee Hok c). rewrite Hk.
    apply wp_bind, wp_throw; [|split; [done|]; exists re; split_and!; auto].
    intros c'. pose proof (find_key_wp k m (fac m) R F Hg Hsub ltac:(by rewrite HFm) c') as Hfind.
    destruct (find_key eqv P (fac m) k m c') as [o m1 c1|m1 c1|]; [|done..]. destruct Hfind as [-> Ho]. rewrite HFm in Ho. destruct o as [h|].
    - destruct Ho as [_ Hhas]. apply wp_ret. apply wp_bind, wp_on_throw. pose proof Hhas as (HhF&_).
      destruct (HF h HhF) as (r&kh&Hr&Hbh&Hkh&_). intros c2.
      rewrite (ok_build_done _ _ _ _ _ _ _ _ _ HP w h r m (Hsub _ _ Hr) (Hoks _ _ Hr) Hbh (Hother w eq_refl) c2).
      apply wp_ret. split; [done|]. exists re. split; [done|]. left. by split_and!.
    - apply wp_bind. eapply wp_mono; [apply (ok_move _ _ _ _ _ _ _ _ _ HP e re m HC Hee Hok)| |].
      + intros n m2 (Hn&r&re'&Hu&Hokr&Hokre&Hbr&Hkr). rewrite Hk in Hkr. destruct Hu as (HR2&HA2&HF2&HC2).
        rewrite HR, insert_insert in HR2.
        assert (Hne : n ≠ e) by congruence.
        assert (HnR : R !! n = None). { rewrite HR, lookup_insert_ne in Hn by done. done. }
        assert (HnF : n ∉ F). { intros Hin. destruct (HF n Hin) as (?&?&?&_). congruence. }
        apply wp_bind. intros c2. simpl. rewrite HF2, HFm. set (m3 := set_fac (n :: F) m2).
        assert (Hn3 : reps m3 !! n = Some r) by (unfold m3; simpl; by rewrite HR2, lookup_insert).
        assert (HC3 : Cnt m3) by exact HC2. apply wp_ret. apply wp_bind, wp_on_throw.
        destruct early eqn:Ee.
        * (* nothing left to build *)
          intros c3. rewrite (ok_build_done _ _ _ _ _ _ _ _ _ HP w n r m3 Hn3 Hokr Hbr (Hother w eq_refl) c3).
          apply wp_ret. split; [done|]. exists re'. split; [done|]. right. split_and!; try done.
          -- exists r. split; [|done]. destruct (ok_early _ _ _ _ _ _ _ _ _ HP r eq_refl Hokr) as [_ Hrv].
             assert (Hvk : v = val k).
             { destruct w; simpl in Hw; [done|..]; destruct Hw as (_&->&_); symmetry; by apply (ok_early_key _ _ _ _ _ _ _ _ _ HP). }
             split_and!; [done|done| |by left]. by rewrite Hrv, Hkr, Hvk.
          -- unfold margs. rewrite Ee. by destruct w.
        * eapply wp_mono; [apply (ok_build _ _ _ _ _ _ _ _ _ HP w n r m3 HC3 Hn3 Hokr Hbr)| |].
          -- destruct w; [done|..]; destruct Hw as (?&?&Ha); simpl; rewrite HA2, Ha by done; eauto.
          -- intros _ m4 (r'&Hu&Hok'&Hb'&Hv'&Hk'). apply wp_ret. destruct Hu as (HR4&HA4&HF4&HC4).
             split; [done|]. exists re'. split; [done|]. right. split_and!; try done.
             ++ exists r'. split; [|unfold m3 in HR4; simpl in HR4; by rewrite HR4, HR2, insert_insert].
                assert (Hval : rval r' = Some v).
                { rewrite Hv'. destruct w; simpl in Hw; [by rewrite Hkr, Hw|..]; destruct Hw as (?&?&Ha); simpl; by rewrite HA2, Ha. }
                split_and!; try done. destruct Hk' as [[-> Hk']|[? Hk']]; [left; split; [congruence|done]|].
                rewrite Hval in Hk'. simpl in Hk'. by right.
             ++ rewrite HF4. by destruct w.
             ++ rewrite HA4. destruct w; simpl; by rewrite ?Ee, HA2.
          -- assert (Herase : ∀ m4, Cnt m4 → reps m4 = reps m3 → fac m4 = n :: F →
               (args m4 = args m ∨ args m4 = margs w m) →
               wp (fac_erase P n) m4 (λ _ m', Cnt m' ∧ ∃ re', ok re' ∧ reps m' = <[e:=re']> R ∧ fac m' = F ∧ (args m' = args m ∨ args m' = margs w m)) (λ _, False)).
             { intros m4 HC4 HR4 HF4 HA4 c3. unfold fac_erase. rewrite bool_decide_true by (rewrite HF4; set_solver).
               assert (Hfil : filter (λ n0, n0 ≠ n) (fac m4) = F).
               { rewrite HF4, filter_cons_False by (intros []; done). clear -HnF. induction F as [|h F IH]; [done|].
                 rewrite filter_cons_True by set_solver. f_equal. apply IH. set_solver. }
               rewrite Hfil. set (m5 := set_fac F m4).
               assert (Hn5 : reps m5 !! n = Some r) by (unfold m5; simpl; by rewrite HR4).
               eapply (wp_mono (dtor P n) m5); [apply (ok_dtor _ _ _ _ _ _ _ _ _ HP n r m5 HC4 Hn5 Hokr)| |done].
               intros _ m6 (HR6&HA6&HF6&HC6). split; [done|]. exists re'. split; [done|]. split_and!.
               - rewrite HR6. unfold m5. simpl. rewrite HR4. unfold m3. simpl. rewrite HR2, delete_insert; [done|].
                 by rewrite lookup_insert_ne.
               - done.
               - by rewrite HA6. }
             intros m4 [(HR4&HA4&HF4&HC4)|(a&->&HR4&HA4&HF4&HC4)].
             ++ apply Herase; [done|done|done|left]. rewrite HA4. done.
             ++ apply Herase; [done|done|done|right]. simpl. rewrite Ee, HA4. simpl. by rewrite HA2.
      + intros m2 (re'&Hu&Hokre). destruct Hu as (HR2&HA2&HF2&HC2). rewrite HR, insert_insert in HR2.
        split; [done|]. exists re'. split_and!; auto; congruence.
  Qed.

  (** ** Whole insertions *)
  (** the outcome of an insertion of key [k], value [v] from [m] *)
  Definition inserted (A : gmap nat (option V)) k v m h m' : Prop :=
    Cnt m' ∧
    ((has (reps m) (fac m) k h ∧ reps m' = reps m ∧ fac m' = fac m ∧ args m' = args m) ∨
     (absent (reps m) (fac m) k ∧ reps m !! h = None ∧ (∃ r, stored r k v ∧ reps m' = <[h:=r]> (reps m)) ∧
      fac m' = h :: fac m ∧ args m' = A)).
  Definition not_inserted (A : gmap nat (option V)) m m' : Prop :=
    Cnt m' ∧ reps m' = reps m ∧ fac m' = fac m ∧ (args m' = args m ∨ args m' = A).

  Definition Inv m : Prop := Cnt m ∧ good (reps m) (fac m).

  (** with the temporary destroyed afterwards *)
  Lemma scoped_insert_wp e w m R F re k v (Q : nat → mem → Prop) (E : mem → Prop) :
    good R F → Cnt m → R !! e = None → reps m = <[e:=re]> R → fac m = F →
    ok re → built re = early → rkey re = Some k → wants w k v m →
    (∀ h m', Cnt m' →
      ((has R F k h ∧ reps m' = R ∧ fac m' = F ∧ args m' = args m) ∨
       (absent R F k ∧ R !! h = None ∧ (∃ r, stored r k v ∧ reps m' = <[h:=r]> R) ∧
        fac m' = h :: F ∧ args m' = margs w m)) → Q h m') →
    (∀ m', Cnt m' → reps m' = R → fac m' = F → (args m' = args m ∨ args m' = margs w m) → E m') →
    wp (finally (insert_and_visit eqv P e w) (dtor P e)) m Q E.
  Proof.
    intros Hg HC He HR HF Hok Hb Hk Hw HQ HE. apply wp_finally.
    eapply wp_mono; [apply (insert_and_visit_wp e w m R F re k v); done| |].
    - intros h m1 (HC1&re'&Hok'&Hcase).
      assert (H1e : reps m1 !! e = Some re').
      { destruct Hcase as [(_&->&_)|(_&_&Hne&(r&_&->)&_)]; [by rewrite lookup_insert|]. by rewrite lookup_insert_ne, lookup_insert. }
      eapply wp_mono; [apply (ok_dtor _ _ _ _ _ _ _ _ _ HP e re' m1 HC1 H1e Hok')| |done].
      intros _ m2 (HR2&HA2&HF2&HC2). apply HQ; [done|]. destruct Hcase as [(?&HR1&?&?)|(?&?&Hne&(r&Hst&HR1)&?&?)].
      + left. split_and!; [done| |congruence|congruence]. by rewrite HR2, HR1, delete_insert.
      + right. split_and!; [done|done| |congruence|congruence]. exists r. split; [done|].
        by rewrite HR2, HR1, delete_insert_ne, delete_insert.
    - intros m1 (HC1&re'&Hok'&HR1&HF1&HA1).
      assert (H1e : reps m1 !! e = Some re') by (by rewrite HR1, lookup_insert).
      eapply wp_mono; [apply (ok_dtor _ _ _ _ _ _ _ _ _ HP e re' m1 HC1 H1e Hok')| |done].
      intros _ m2 (HR2&HA2&HF2&HC2). apply HE; [done| |congruence|by rewrite HA2]. by rewrite HR2, HR1, delete_insert.
  Qed.

  Lemma margs_key m : margs ByKey m = args m.
  Proof. done. Qed.

  Theorem insert_rep_lv_wp x r k m : Inv m → reps m !! x = Some r → rkey r = Some k →
    wp (insert_rep_lv eqv P x) m (inserted (args m) k (val k) m) (not_inserted (args m) m).
  Proof.
    intros HI Hx Hk. pose proof HI as [HC [Hoks _]]. apply wp_bind.
    eapply wp_mono; [apply (ok_copy _ _ _ _ _ _ _ _ _ HP x r m HC Hx (Hoks _ _ Hx))| |].
    - intros e m1 (He&re&(HR1&HA1&HF1&HC1)&Hok&Hb&Hke). eapply (scoped_insert_wp e ByKey m1 (reps m) (fac m) re k (val k)); [apply HI|done|done|done|done|done|done|congruence|done| |].
      + intros h m' HC' Hc. split; [done|]. simpl in Hc. rewrite HA1 in Hc. exact Hc.
      + intros m' HC' HR' HF' HA'. split_and!; try done. simpl in HA'. rewrite HA1 in HA'. exact HA'.
    - intros m1 (HR1&HA1&HF1&HC1). split_and!; auto.
  Qed.

  (** the rvalue rep is left in a destructible state *)
  Theorem insert_rep_rv_wp x r k m : Inv m → reps m !! x = Some r → x ∉ fac m → rkey r = Some k →
    wp (insert_rep_rv eqv P x) m
      (λ h m', ∃ r', ok r' ∧ inserted (args m) k (val k) (set_reps (<[x:=r']> (reps m)) m) h m')
      (λ m', ∃ r', ok r' ∧ not_inserted (args m) (set_reps (<[x:=r']> (reps m)) m) m').
  Proof.
    intros HI Hx HxF Hk. pose proof HI as [HC [Hoks [Hnd HF]]]. apply wp_bind.
    eapply wp_mono; [apply (ok_move _ _ _ _ _ _ _ _ _ HP x r m HC Hx (Hoks _ _ Hx))| |].
    - intros e m1 (He&re&r'&(HR1&HA1&HF1&HC1)&Hok&Hok'&Hb&Hke).
      assert (Hne : e ≠ x) by congruence.
      assert (Hg0 : good (<[x:=r']> (reps m)) (fac m)).
      { split_and!; simpl; [|done|].
        - intros i ri Hi. destruct (decide (i = x)) as [->|]; [rewrite lookup_insert in Hi; congruence|].
          rewrite lookup_insert_ne in Hi by done. eauto.
        - intros h Hh. rewrite lookup_insert_ne by congruence. by apply HF. }
      eapply (scoped_insert_wp e ByKey m1 (<[x:=r']> (reps m)) (fac m) re k (val k)); [done|done|by rewrite lookup_insert_ne|done|done|done|done|congruence|done| |].
      + intros h m' HC' Hc. exists r'. split; [done|]. split; [done|]. simpl in Hc. rewrite HA1 in Hc. exact Hc.
      + intros m' HC' HR' HF' HA'. exists r'. split; [done|]. split_and!; try done. simpl in HA'. rewrite HA1 in HA'. exact HA'.
    - intros m1 (r'&(HR1&HA1&HF1&HC1)&Hok'). exists r'. split; [done|]. split_and!; auto.
  Qed.

  Theorem insert_args_wp k m : Inv m →
    wp (insert_args eqv P k) m (inserted (args m) k (val k) m) (not_inserted (args m) m).
  Proof.
    intros HI. pose proof HI as [HC Hg]. pose proof Hg as [Hoks [Hnd HF]]. apply wp_bind.
    eapply wp_mono; [apply (ok_args _ _ _ _ _ _ _ _ _ HP k m HC)| |].
    - intros x m1 (Hx&r&(HR1&HA1&HF1&HC1)&Hok&Hb&Hk). apply wp_finally.
      assert (HxF : x ∉ fac m1). { rewrite HF1. intros Hin. destruct (HF x Hin) as (?&?&?&_). congruence. }
      assert (HI1 : Inv m1).
      { split; [done|]. rewrite HR1, HF1. split_and!; [|done|].
        - intros i ri Hi. destruct (decide (i = x)) as [->|]; [rewrite lookup_insert in Hi; congruence|].
          rewrite lookup_insert_ne in Hi by done. eauto.
        - intros h Hh. rewrite lookup_insert_ne by congruence. by apply HF. }
      eapply wp_mono; [apply (insert_rep_rv_wp x r k m1 HI1); [by rewrite HR1, lookup_insert|done|done]| |].
      + intros h m2 (r'&Hok'&HC2&Hc). simpl in Hc. rewrite HR1, insert_insert, HF1, HA1 in Hc.
        assert (Hh : ∀ F', has (<[x:=r']> (reps m)) F' k h → x ∉ F' → has (reps m) F' k h).
        { intros F' [HhF (r1&k1&Hr1&Hrest)] HxF'. split; [done|]. rewrite lookup_insert_ne in Hr1 by congruence. eauto. }
        assert (H2x : reps m2 !! x = Some r').
        { destruct Hc as [(_&->&_)|(_&Hn&(r1&_&->)&_)]; [by rewrite lookup_insert|].
          rewrite lookup_insert_ne; [by rewrite lookup_insert|]. intros ->. by rewrite lookup_insert in Hn. }
        eapply wp_mono; [apply (ok_dtor _ _ _ _ _ _ _ _ _ HP x r' m2 HC2 H2x Hok')| |done].
        intros _ m3 (HR3&HA3&HF3&HC3). split; [done|]. rewrite HF1 in HxF. destruct Hc as [(?&HR2&?&?)|(Hab&Hn&(r1&?&HR2)&?&?)].
        * left. split_and!; [by apply Hh| |congruence|congruence]. by rewrite HR3, HR2, delete_insert.
        * right. assert (Hne : x ≠ h). { intros ->. by rewrite lookup_insert in Hn. }
          rewrite lookup_insert_ne in Hn by done. split_and!; [|done| |congruence|congruence].
          -- intros h' r2 k2 Hh' Hr2. apply (Hab h' r2 k2 Hh'). rewrite lookup_insert_ne by congruence. done.
          -- exists r1. split; [done|]. by rewrite HR3, HR2, delete_insert_ne, delete_insert.
      + intros m2 (r'&Hok'&HC2&HR2&HF2&HA2). simpl in *. rewrite HR1, insert_insert in HR2.
        assert (H2x : reps m2 !! x = Some r') by (by rewrite HR2, lookup_insert).
        eapply wp_mono; [apply (ok_dtor _ _ _ _ _ _ _ _ _ HP x r' m2 HC2 H2x Hok')| |done].
        intros _ m3 (HR3&HA3&HF3&HC3). split_and!; [done| |congruence|left; destruct HA2; congruence].
        by rewrite HR3, HR2, delete_insert.
    - intros m1 (HR1&HA1&HF1&HC1). split_and!; auto.
  Qed.

  (** what is left of the argument of an insertion by value: after taking
      it when its rep is built early, and in the end *)
  Definition taken (rv : bool) (a : nat) m : gmap nat (option V) :=
    if early && rv then <[a:=None]> (args m) else args m.
  Definition consumed (rv : bool) (a : nat) m : gmap nat (option V) :=
    if rv then <[a:=None]> (args m) else args m.
  Definition inserted_value (rv : bool) (a : nat) v m h m' : Prop :=
    Cnt m' ∧
    ((has (reps m) (fac m) (kof v) h ∧ reps m' = reps m ∧ fac m' = fac m ∧ args m' = taken rv a m) ∨
     (absent (reps m) (fac m) (kof v) ∧ reps m !! h = None ∧ (∃ r, stored r (kof v) v ∧ reps m' = <[h:=r]> (reps m)) ∧
      fac m' = h :: fac m ∧ args m' = consumed rv a m)).

  Theorem insert_value_wp rv a v m : hv = true → Inv m → args m !! a = Some (Some v) →
    wp (insert_value eqv P rv a) m (inserted_value rv a v m) (not_inserted (consumed rv a m) m).
  Proof.
    intros Hhv HI Ha. pose proof HI as [HC Hg]. pose proof Hg as [Hoks [Hnd HF]]. apply wp_bind.
    eapply wp_mono; [apply (ok_value _ _ _ _ _ _ _ _ _ HP rv a (Some v) m Hhv HC Ha)| |].
    - intros x m1 (Hx&r&Hu&Hok&Hb&Hk). simpl in Hk.
      assert (HA1 : args m1 = taken rv a m). { destruct Hu as (_&HA1&_). rewrite HA1. unfold taken. by destruct (early && rv). }
      assert (HF1 : fac m1 = fac m). { destruct Hu as (_&_&HF1&_). rewrite HF1. by destruct (early && rv). }
      destruct Hu as (HR1&_&_&HC1).
      assert (H1x : reps m1 !! x = Some r) by (by rewrite HR1, lookup_insert).
      assert (Htk : taken rv a m = args m ∨ taken rv a m = consumed rv a m).
      { unfold taken, consumed. destruct early, rv; simpl; auto. }
      apply wp_bind, wp_finally. eapply wp_mono; [apply (ok_move _ _ _ _ _ _ _ _ _ HP x r m1 HC1 H1x Hok)| |].
      + intros e m2 (He&re&r'&(HR2&HA2&HF2&HC2)&Hoke&Hok'&Hbe&Hke). rewrite HR1, insert_insert in HR2.
        rewrite HR1 in He. assert (Hne : e ≠ x). { intros ->. by rewrite lookup_insert in He. }
        rewrite lookup_insert_ne in He by done.
        assert (H2x : reps m2 !! x = Some r') by (by rewrite HR2, lookup_insert_ne, lookup_insert).
        eapply wp_mono; [apply (ok_dtor _ _ _ _ _ _ _ _ _ HP x r' m2 HC2 H2x Hok')| |done].
        intros _ m3 (HR3&HA3&HF3&HC3). rewrite HR2, delete_insert_ne, delete_insert in HR3 by done.
        assert (HA : args m3 = taken rv a m) by congruence.
        eapply (scoped_insert_wp e _ m3 (reps m) (fac m) re (kof v) v); [done|done|done|done|congruence|done|done|congruence| | |].
        * destruct rv; (split_and!; [done..|]); intros Ee; rewrite HA; unfold taken; by rewrite Ee.
        * intros h m' HC' Hc. split; [done|]. destruct Hc as [(?&?&?&?)|(?&?&?&?&HA')]; [left|right]; split_and!; try done; try congruence.
          rewrite HA'. unfold consumed. destruct rv; simpl; rewrite HA; unfold taken; by destruct early.
        * intros m' HC' HR' HF' HA'. split_and!; try done. rewrite HA in HA'. 
          assert (Hm : margs (if rv then ByMove a else ByCopy a) m3 = consumed rv a m).
          { unfold consumed. destruct rv; simpl; rewrite HA; unfold taken; by destruct early. }
          rewrite Hm in HA'. destruct Htk as [Ht|Ht]; rewrite Ht in HA'; tauto.
      + intros m2 (r'&(HR2&HA2&HF2&HC2)&Hok'). rewrite HR1, insert_insert in HR2.
        assert (H2x : reps m2 !! x = Some r') by (by rewrite HR2, lookup_insert).
        eapply wp_mono; [apply (ok_dtor _ _ _ _ _ _ _ _ _ HP x r' m2 HC2 H2x Hok')| |done].
        intros _ m3 (HR3&HA3&HF3&HC3). split_and!; [done| |congruence|].
        * by rewrite HR3, HR2, delete_insert.
        * rewrite HA3, HA2, HA1. done.
    - intros m1 [(HR1&HA1&HF1&HC1)|(Eb&HR1&HA1&HF1&HC1)]; (split_and!; [done..|]); [by left|right].
      rewrite HA1. apply andb_true_iff in Eb as [_ ->]. done.
  Qed.

  (** an insertion keeps the invariant *)
  Lemma inserted_inv A k v m h m' : good (reps m) (fac m) → inserted A k v m h m' → Inv m' ∧ h ∈ fac m'.
  Proof.
    intros Hg [HC' [(Hh&HR&HFf&_)|(_&Hn&(r&Hst&HR)&HFf&_)]].
    - split; [split; [done|]; by rewrite HR, HFf|]. rewrite HFf. apply Hh.
    - destruct Hg as (Hoks&Hnd&HF). assert (HhF : h ∉ fac m). { intros Hin. destruct (HF h Hin) as (?&?&?&_). congruence. }
      split; [|rewrite HFf; set_solver]. split; [done|]. rewrite HR, HFf. split_and!.
      + intros i ri Hi. destruct (decide (i = h)) as [->|].
        * rewrite lookup_insert in Hi. injection Hi as <-. apply Hst.
        * rewrite lookup_insert_ne in Hi by done. eauto.
      + by constructor.
      + intros h' Hh'. destruct (decide (h = h')) as [->|Hne].
        * rewrite lookup_insert. exists r. destruct Hst as (_&Hb&Hv&[[Hk ->]|[? Hk]]).
          -- exists k. split_and!; [done..|]. exists (val k). auto.
          -- exists (kof v). split_and!; [done..|]. exists v. auto.
        * rewrite lookup_insert_ne by done. apply HF. set_solver.
  Qed.
  Lemma inserted_value_inv rv a v m h m' : Inv m → inserted_value rv a v m h m' → Inv m' ∧ h ∈ fac m'.
  Proof.
    intros [_ HI] [HC' [(Hh&HR&HFf&_)|(Ha&Hn&Hst&HFf&_)]].
    - split; [split; [done|]; by rewrite HR, HFf|]. rewrite HFf. apply Hh.
    - apply (inserted_inv (args m') (kof v) v m); [done|]. split; [done|]. right. by split_and!.
  Qed.
  Lemma not_inserted_inv A m m' : good (reps m) (fac m) → not_inserted A m m' → Inv m'.
  Proof. intros Hg (HC'&HR&HF&_). split; [done|]. by rewrite HR, HF. Qed.
End Insert.
