(** Sequences of operations: no undefined behaviour, balanced lifetimes,
    entries never change. *)
From Verif Require Export LifetimeInsert.

Section Run.
  Context {K V : Type} (eqv : K → K → bool).
  Notation mem := (mem (K:=K) (V:=V)).
  Notation rep := (rep (K:=K) (V:=V)).
  Context (P : pol (K:=K) (V:=V)) (val : K → V) (ok : rep → Prop) (built : rep → bool)
    (rkey : rep → option K) (rval : rep → option V) (hv early : bool) (kof : V → K).
  Context (HP : pol_ok P val ok built rkey rval hv early kof).
  Implicit Types (m : mem).
  Notation Inv := (Inv val ok built rkey rval hv kof).
  Notation good := (good val ok built rkey rval hv kof).

  Lemma good_insert R F i r : good R F → ok r → R !! i = None → good (<[i:=r]> R) F.
  Proof.
    intros (Hok&Hnd&HF) Hr Hi. split_and!; [|done|].
    - intros j rj Hj. destruct (decide (i = j)) as [->|]; [rewrite lookup_insert in Hj; congruence|].
      rewrite lookup_insert_ne in Hj by done. eauto.
    - intros h Hh. destruct (HF h Hh) as (rh&k&Hrh&Hrest). exists rh, k. rewrite lookup_insert_ne by congruence. done.
  Qed.
  Lemma good_upd R F i r : good R F → ok r → i ∉ F → good (<[i:=r]> R) F.
  Proof.
    intros (Hok&Hnd&HF) Hr Hi. split_and!; [|done|].
    - intros j rj Hj. destruct (decide (i = j)) as [->|]; [rewrite lookup_insert in Hj; congruence|].
      rewrite lookup_insert_ne in Hj by done. eauto.
    - intros h Hh. rewrite lookup_insert_ne by congruence. by apply HF.
  Qed.
  Lemma good_delete R F i : good R F → i ∉ F → good (delete i R) F.
  Proof.
    intros (Hok&Hnd&HF) Hi. split_and!; [|done|].
    - intros j rj Hj. apply lookup_delete_Some in Hj as [_ Hj]. eauto.
    - intros h Hh. rewrite lookup_delete_ne by congruence. by apply HF.
  Qed.
  Lemma good_none R F i : good R F → R !! i = None → i ∉ F.
  Proof. intros (_&_&HF) Hi Hin. destruct (HF i Hin) as (?&?&?&_). congruence. Qed.

  (** outcome of an operation: the invariant, and entries untouched *)
  Definition step_ok m m' : Prop := Inv m' ∧ ∀ h, h ∈ fac m → h ∈ fac m' → reps m' !! h = reps m !! h.

  Lemma exec_ok o m : Inv m → legal P hv m o = true →
    wp (exec eqv P o) m (λ _, step_ok m) (step_ok m).
  Proof.
    intros HI Hl. pose proof HI as [HC Hg]. pose proof Hg as (Hoks&Hnd&HF).
    assert (Hrep : ∀ i, has_rep m i = true → ∃ r, reps m !! i = Some r ∧ ok r).
    { intros i Hi. apply bool_decide_eq_true in Hi as [r Hr]. eauto. }
    assert (Harg : ∀ a, has_arg hv m a = true → hv = true ∧ ∃ v, args m !! a = Some (Some v)).
    { intros a Ha. unfold has_arg in Ha. destruct (args m !! a) as [[v|]|] eqn:Ea; [eauto|done|done]. }
    assert (Hkey : ∀ i r, reps m !! i = Some r → ok r → has_key P m i = true → ∃ k, rkey r = Some k).
    { intros i r Hr Hokr Hk. unfold has_key in Hk. rewrite (ok_key _ _ _ _ _ _ _ _ _ HP i r m Hr Hokr []) in Hk.
      destruct (rkey r); [eauto|done]. }
    assert (Hsame : ∀ m', upd m m' (reps m) → step_ok m m').
    { intros m' (HR&_&HFf&HC'). split; [split; [done|by rewrite HR, HFf]|]. intros. by rewrite HR. }
    assert (Hnew : ∀ i r m', reps m !! i = None → ok r → reps m' = <[i:=r]> (reps m) → fac m' = fac m → Cnt m' → step_ok m m').
    { intros i r m' Hi Hr HR HFf HC'. split; [split; [done|rewrite HR, HFf; by apply good_insert]|].
      intros h Hh _. rewrite HR, lookup_insert_ne; [done|]. intros <-. by eapply good_none. }
    assert (Hins : ∀ A k v h m', inserted eqv val ok built rkey rval hv kof A k v m h m' → step_ok m m').
    { intros A k v h m' Hi. split; [by eapply inserted_inv|]. intros h' Hh _. destruct Hi as [_ [(_&->&_)|(_&Hn&(r&_&->)&_)]]; [done|].
      rewrite lookup_insert_ne; [done|]. intros <-. by eapply good_none. }
    assert (Hnot : ∀ A m', not_inserted A m m' → step_ok m m').
    { intros A m' Hn. split; [by eapply not_inserted_inv|]. intros. destruct Hn as (_&->&_). done. }
    destruct o as [v|k|j|j|rv a|i|i|h|w i|k|x|x|rv a|h]; simpl in Hl; simpl.
    - apply wp_bind. intros c. simpl. apply wp_ret. by split.
    - apply wp_bind. eapply wp_mono; [apply (ok_args _ _ _ _ _ _ _ _ _ HP k m HC)| |done].
      intros i m' (Hi&r&(HR&HA&HFf&HC')&Hr&_). apply wp_ret. by eapply Hnew.
    - destruct (Hrep j Hl) as (r0&Hj&Hok0). apply wp_bind. eapply wp_mono; [apply (ok_copy _ _ _ _ _ _ _ _ _ HP j r0 m HC Hj Hok0)| |done].
      intros i m' (Hi&r&(HR&HA&HFf&HC')&Hr&_). apply wp_ret. by eapply Hnew.
    - apply andb_true_iff in Hl as [Hl HjF%bool_decide_eq_true].
      destruct (Hrep j Hl) as (r0&Hj&Hok0). apply wp_bind. eapply wp_mono; [apply (ok_move _ _ _ _ _ _ _ _ _ HP j r0 m HC Hj Hok0)| |].
      + intros i m' (Hi&r&r1&(HR&HA&HFf&HC')&Hr&Hr1&_). apply wp_ret. assert (i ≠ j) by congruence. split.
        * split; [done|]. rewrite HR, HFf. apply good_insert; [by apply good_upd|done|by rewrite lookup_insert_ne].
        * intros h Hh _. rewrite HR, !lookup_insert_ne; [done|congruence|]. intros <-. by eapply good_none.
      + intros m' (r1&(HR&HA&HFf&HC')&Hr1). split.
        * split; [done|]. rewrite HR, HFf. by apply good_upd.
        * intros h Hh _. rewrite HR, lookup_insert_ne; [done|congruence].
    - destruct (Harg a Hl) as [Hhv [v Ha]]. apply wp_bind. eapply wp_mono; [apply (ok_value _ _ _ _ _ _ _ _ _ HP rv a _ m Hhv HC Ha)| |].
      + intros i m' (Hi&r&(HR&HA&HFf&HC')&Hr&_). apply wp_ret. eapply Hnew; [done|done|done| |done]. rewrite HFf. by destruct (early && rv).
      + intros m' [Hu|(_&HR&_&HFf&HC')]; [by apply Hsame|]. split; [split; [done|by rewrite HR, HFf]|]. intros. by rewrite HR.
    - apply andb_true_iff in Hl as [Hl HjF%bool_decide_eq_true]. destruct (Hrep i Hl) as (r&Hi&Hr).
      eapply wp_mono; [apply (ok_dtor _ _ _ _ _ _ _ _ _ HP i r m HC Hi Hr)| |done].
      intros _ m' (HR&HA&HFf&HC'). split.
      + split; [done|]. rewrite HR, HFf. by apply good_delete.
      + intros h Hh _. rewrite HR, lookup_delete_ne; [done|congruence].
    - destruct (Hrep i Hl) as (r&Hi&Hr). apply wp_bind. intros c. rewrite (ok_key _ _ _ _ _ _ _ _ _ HP i r m Hi Hr c). apply wp_ret. by apply Hsame.
    - apply bool_decide_eq_true in Hl. destruct (HF h Hl) as (r&k&Hh&Hb&_). apply wp_bind. intros c.
      rewrite (ok_val _ _ _ _ _ _ _ _ _ HP h r m Hh (Hoks _ _ Hh) Hb c). apply wp_ret. by apply Hsame.
    - apply andb_true_iff in Hl as [Hl Hw]. destruct (Hrep i Hl) as (r&Hi&Hr).
      assert (Hw' : w = ByKey ∨ hv = true). { destruct w; [by left|right..]; by eapply Harg. }
      destruct (built r) eqn:Eb.
      + intros c. rewrite (ok_build_done _ _ _ _ _ _ _ _ _ HP w i r m Hi Hr Eb Hw' c). by apply Hsame.
      + assert (HiF : i ∉ fac m). { intros Hin. destruct (HF i Hin) as (?&?&?&?&_). congruence. }
        eapply wp_mono; [apply (ok_build _ _ _ _ _ _ _ _ _ HP w i r m HC Hi Hr Eb)| |].
        * destruct w; [done|..]; destruct (Harg _ Hw) as [? [v Ha]]; rewrite Ha; eauto.
        * intros _ m' (r'&(HR&HA&HFf&HC')&Hr'&_).
          assert (HFm : fac m' = fac m) by (rewrite HFf; by destruct w). split.
          -- split; [done|]. rewrite HR, HFm. by apply good_upd.
          -- intros h Hh _. rewrite HR, lookup_insert_ne; [done|congruence].
        * intros m' [Hu|(a&_&HR&_&HFf&HC')]; [by apply Hsame|]. split; [split; [done|by rewrite HR, HFf]|]. intros. by rewrite HR.
    - apply wp_bind. eapply wp_mono; [apply (insert_args_wp eqv _ _ _ _ _ _ _ _ _ HP k m HI)| |by eapply Hnot].
      intros h m' Hi. apply wp_ret. by eapply Hins.
    - apply andb_true_iff in Hl as [Hl Hk]. destruct (Hrep x Hl) as (r&Hx&Hr). destruct (Hkey x r Hx Hr Hk) as [k Hkx].
      apply wp_bind. eapply wp_mono; [apply (insert_rep_lv_wp eqv _ _ _ _ _ _ _ _ _ HP x r k m HI Hx Hkx)| |by eapply Hnot].
      intros h m' Hi. apply wp_ret. by eapply Hins.
    - apply andb_true_iff in Hl as [[Hl Hk]%andb_true_iff HxF%bool_decide_eq_true]. destruct (Hrep x Hl) as (r&Hx&Hr). destruct (Hkey x r Hx Hr Hk) as [k Hkx].
      assert (Hg' : ∀ r', ok r' → good (<[x:=r']> (reps m)) (fac m)) by (intros; by apply good_upd).
      apply wp_bind. eapply wp_mono; [apply (insert_rep_rv_wp eqv _ _ _ _ _ _ _ _ _ HP x r k m HI Hx HxF Hkx)| |].
      + intros h m' (r'&Hr'&Hi). apply wp_ret. pose proof Hi as HI'. eapply inserted_inv in HI' as [HI' _]; [|exact HP|by apply Hg']. split; [done|].
        intros h' Hh _. destruct Hi as [_ [(_&->&_)|(_&Hn&(r1&_&->)&_)]]; simpl in *.
        * rewrite lookup_insert_ne; [done|congruence].
        * rewrite lookup_insert_ne; [rewrite lookup_insert_ne; [done|congruence]|]. intros <-. eapply good_none; [by apply (Hg' r')|done|done].
      + intros m' (r'&Hr'&Hn). pose proof Hn as HI'. eapply not_inserted_inv in HI'; [|by apply (Hg' r')]. split; [done|].
        intros h' Hh _. destruct Hn as (_&->&_). simpl. rewrite lookup_insert_ne; [done|congruence].
    - destruct (Harg a Hl) as [Hhv [v Ha]]. apply wp_bind. eapply wp_mono; [apply (insert_value_wp eqv _ _ _ _ _ _ _ _ _ HP rv a v m Hhv HI Ha)| |by eapply Hnot].
      intros h m' Hi. apply wp_ret. split; [by eapply inserted_value_inv|]. intros h' Hh _. destruct Hi as [_ [(_&->&_)|(_&Hn&(r&_&->)&_)]]; [done|].
      rewrite lookup_insert_ne; [done|]. intros <-. by eapply good_none.
    - intros c. unfold fac_erase. rewrite Hl. apply bool_decide_eq_true in Hl. destruct (HF h Hl) as (r&k&Hh&Hb&_).
      set (m1 := set_fac (filter (λ n, n ≠ h) (fac m)) m).
      assert (HhF : h ∉ filter (λ n, n ≠ h) (fac m)) by (rewrite elem_of_list_filter; tauto).
      assert (Hg1 : good (reps m) (filter (λ n, n ≠ h) (fac m))).
      { split_and!; [done|by apply NoDup_filter|]. intros h' [_ Hh']%elem_of_list_filter. by apply HF. }
      refine (wp_mono (dtor P h) m1 _ _ _ _ (ok_dtor _ _ _ _ _ _ _ _ _ HP h r m1 HC Hh (Hoks _ _ Hh)) _ _ c); [|done].
      intros _ m' (HR&HA&HFf&HC'). split.
      + split; [done|]. rewrite HR, HFf. by apply good_delete.
      + intros h' _ Hh'. rewrite HFf in Hh'. rewrite HR, lookup_delete_ne; [done|]. intros <-. done.
  Qed.

  Lemma run_ok l : ∀ m c, Inv m → ∃ m', run_ops eqv P hv l m c = Some m' ∧ Inv m'.
  Proof.
    induction l as [|o l IH]; intros m c HI; simpl; [eauto|].
    destruct (legal P hv m o) eqn:El; [|by apply IH].
    pose proof (exec_ok o m HI El c) as H. destruct (exec eqv P o m c) as [x m' c'|m' c'|]; [..|done]; apply IH; apply H.
  Qed.
  Lemma empty_inv : Inv empty_mem.
  Proof.
    split; [split; [|split]|split; [|split]]; simpl.
    - done.
    - intros o. by rewrite msum_empty.
    - done.
    - intros i r Hi. by rewrite lookup_empty in Hi.
    - constructor.
    - intros h Hh. by apply elem_of_nil in Hh.
  Qed.
  Lemma run_empty l c : ∃ m', run_ops eqv P hv l empty_mem c = Some m' ∧ Inv m'.
  Proof. apply run_ok, empty_inv. Qed.
End Run.

(** ** The accounts, in terms of objects *)
Section Objects.
  Context {K V : Type}.
  Notation mem := (mem (K:=K) (V:=V)).
  Implicit Types (m : mem).

  (** object [o] is the key ([true]) or value of the rep object at [i] *)
  Definition holds m (o i : nat) (b : bool) : Prop :=
    ∃ r, reps m !! i = Some r ∧
      if b then ∃ x, r_key r = Some (o, x) else ∃ x, r_val r = Some (o, x).
  (** every object is constructed once, destroyed at most once, not destroyed
      while something holds it, held in one place only, and destroyed if
      nothing holds it *)
  Definition balanced m : Prop :=
    NoDup (made m) ∧ NoDup (gone m) ∧ (∀ o, o ∈ gone m → o ∈ made m) ∧
    (∀ o i b, holds m o i b → o ∈ made m ∧ o ∉ gone m) ∧
    (∀ o i b i' b', holds m o i b → holds m o i' b' → i = i' ∧ b = b') ∧
    ∀ o, o ∈ made m → o ∉ gone m → ∃ i b, holds m o i b.

  Lemma occ_nodup (l : list nat) : (∀ o, occ o l ≤ 1) → NoDup l.
  Proof.
    induction l as [|a l IH]; intros H; constructor.
    - intros Ha%occ_pos. specialize (H a). rewrite occ_cons, decide_True in H by done. lia.
    - apply IH. intros o. specialize (H o). rewrite occ_cons in H. lia.
  Qed.
  Lemma holds_slots m o i (b : bool) r : reps m !! i = Some r →
    (if b then ∃ x, r_key r = Some (o, x) else ∃ x, r_val r = Some (o, x)) ↔
    0 < (if b then slot (r_key r) o else slot (r_val r) o)%nat.
  Proof.
    intros _. assert (∀ (X : Type) (s : option (nat * X)), (∃ x, s = Some (o, x)) ↔ 0 < slot s o) as Hs.
    { intros X s. unfold slot. destruct s as [[o' x]|]; [|split; [by intros [? ?]|lia]]. case_decide; split; try lia; [|naive_solver..].
      intros _. subst. eauto. }
    destruct b; apply Hs.
  Qed.
  Lemma cnt_balanced m : Cnt m → balanced m.
  Proof.
    intros (H1&H2&_).
    assert (Hm : ∀ o, occ o (made m) ≤ 1) by (intros o; rewrite H1; unfold b2n; destruct (_ <? _); lia).
    assert (Hg : ∀ o, occ o (gone m) + msum (λ r, slots r o) (reps m) ≤ 1) by (intros o; rewrite H2; apply Hm).
    assert (Hh : ∀ o i b, holds m o i b → 0 < msum (λ r, slots r o) (reps m)).
    { intros o i b (r&Hr&Hs). apply (holds_slots m o i b r Hr) in Hs. apply msum_pos. exists i, r. split; [done|]. unfold slots. destruct b; lia. }
    split_and!.
    - by apply occ_nodup.
    - apply occ_nodup. intros o. specialize (Hg o). lia.
    - intros o Ho%occ_pos. apply occ_pos. rewrite <- H2. lia.
    - intros o i b Ho%Hh. specialize (Hg o). specialize (H2 o). split; [apply occ_pos; lia|]. intros Hin%occ_pos. lia.
    - intros o i b i' b' Ho Ho'. specialize (Hg o). destruct Ho as (r&Hr&Hs), Ho' as (r'&Hr'&Hs').
      apply (holds_slots m o i b r Hr) in Hs. apply (holds_slots m o i' b' r' Hr') in Hs'.
      pose proof (msum_delete (λ r, slots r o) (reps m) i r Hr) as Hd. simpl in Hd.
      destruct (decide (i = i')) as [<-|Hne].
      + split; [done|]. assert (r' = r) as -> by congruence. unfold slots in Hd at 1. destruct b, b'; try done; lia.
      + assert (Hr2 : delete i (reps m) !! i' = Some r') by (by rewrite lookup_delete_ne).
        pose proof (msum_ge (λ r, slots r o) _ i' r' Hr2) as Hge. simpl in Hge.
        assert (0 < slots r o) by (unfold slots; destruct b; lia). assert (0 < slots r' o) by (unfold slots; destruct b'; lia). lia.
    - intros o Ho%occ_pos Hng. assert (occ o (gone m) = 0) as Hz.
      { destruct (occ o (gone m)) eqn:E; [done|]. destruct Hng. apply occ_pos. lia. }
      specialize (H2 o). assert (0 < msum (λ r, slots r o) (reps m)) as Hp by lia.
      apply msum_pos in Hp as (i&r&Hr&Hs). exists i. unfold slots in Hs.
      destruct (slot (r_key r) o) eqn:Ek.
      + exists false. exists r. split; [done|]. apply (holds_slots m o i false r Hr). simpl in Hs. lia.
      + exists true. exists r. split; [done|]. apply (holds_slots m o i true r Hr). lia.
  Qed.
  Lemma balanced_empty m : balanced m → reps m = ∅ → made m ≡ₚ gone m.
  Proof.
    intros (Hm&Hg&Hsub&_&_&Hall) He. apply NoDup_Permutation; [done|done|]. intros o. split; [|apply Hsub].
    intros Ho. destruct (decide (o ∈ gone m)) as [|Hn]; [done|]. destruct (Hall o Ho Hn) as (i&b&r&Hr&_).
    rewrite He in Hr. by rewrite lookup_empty in Hr.
  Qed.
End Objects.
