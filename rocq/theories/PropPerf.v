(** C79: example/perf.cpp.  Whatever other threads do, the program with flyweights
    computes what it computes with strings, and leaves no object behind; for an
    empty file both are undefined. *)
From Coq Require Import Ascii String ZArith NArith.
From Verif Require Import SerializeProofs CoreRace Policies Instances PropInner Client PropClient PropParallel.
From Verif Require PropBasic PropSerText PropTeam.
From Verif Require Import Factory.
From Verif Require Import Parallel SerText Perf.
Open Scope list_scope.
Notation leaf w := (Tree w []).

(** ** What is computed *)
Section Sums.
  Implicit Types (ws : list word) (txt w : word) (a b c s : N).
  Lemma wrap_l a b : wrap (wrap a + b) = wrap (a + b).
  Proof. unfold wrap. by rewrite N.add_mod_idemp_l by done. Qed.
  Lemma wrap_r a b : wrap (a + wrap b) = wrap (a + b).
  Proof. unfold wrap. by rewrite N.add_mod_idemp_r by done. Qed.
  Lemma wrap_wrap a : wrap (wrap a) = wrap a.
  Proof. unfold wrap. by rewrite N.mod_mod by done. Qed.
  Lemma wrap_mul a b : wrap (a * wrap b) = wrap (a * b).
  Proof. unfold wrap. by rewrite N.mul_mod_idemp_r by done. Qed.
  Lemma wrap_small a : (a < 2 ^ 64)%N → wrap a = a.
  Proof. apply N.mod_small. Qed.
  Lemma plain_sum_wrap ws : ∀ s, wrap (plain_sum ws s) = wrap (s + N.of_nat (length (concat ws))).
  Proof.
    induction ws as [|w ws IH]; intros s; simpl; [by rewrite N.add_0_r|]. unfold plain_sum in *. rewrite IH, wrap_l, app_length. f_equal. lia.
  Qed.
  Lemma plain_access_wrap r ws : ∀ s, wrap (plain_access r ws s) = wrap (2 ^ N.of_nat r * s + (2 ^ N.of_nat r - 1) * N.of_nat (length (concat ws))).
  Proof.
    induction r as [|r IH]; intros s; [f_equal; simpl; destruct s; lia|]. cbn [plain_access]. rewrite IH.
    rewrite <- (wrap_l (2 ^ N.of_nat r * _)), wrap_mul, <- (wrap_mul _ (s + _)), <- (wrap_r s), plain_sum_wrap, wrap_r, wrap_mul, wrap_l. f_equal.
    rewrite Nat2N.inj_succ, N.pow_succ_r by lia. assert (0 < 2 ^ N.of_nat r)%N by (apply N.neq_0_lt_0, N.pow_nonzero; done). nia.
  Qed.
  Lemma count_bounds ws w : w ∈ ws → 1 ≤ length (filter (.= w) ws) ≤ length ws.
  Proof.
    intros Hin. split; [|apply filter_length]. assert (w ∈ filter (.= w) ws) as H by (by apply elem_of_list_filter). destruct (filter (.= w) ws); [by apply elem_of_nil in H|simpl; lia].
  Qed.
  Lemma plain_compare_bounds r ws : ∀ c, ws ≠ [] → (c + N.of_nat r * N.of_nat (length ws) < 2 ^ 64)%N →
    ∃ c', plain_compare r ws c = Some c' ∧ (c + N.of_nat r <= c' <= c + N.of_nat r * N.of_nat (length ws))%N.
  Proof.
    induction r as [|r IH]; intros c Hne Hb; [exists c; split; [done|lia]|]. cbn [plain_compare].
    destruct (lookup_lt_is_Some_2 ws (N.to_nat (c mod N.of_nat (length ws)))) as [w Hw].
    { destruct ws as [|w0 ws]; [done|]. pose proof (N.mod_lt c (N.of_nat (length (w0 :: ws)))). simpl length in *. lia. }
    rewrite Hw. pose proof (count_bounds ws w (elem_of_list_lookup_2 _ _ _ Hw)) as Hc. rewrite wrap_small by nia.
    destruct (IH (c + N.of_nat (length (filter (.= w) ws)))%N Hne) as (c'&E&H'); [nia|]. exists c'. split; [done|]. nia.
  Qed.
  Lemma c_str_same w : "000"%char ∉ w → c_str w = w.
  Proof. induction w as [|c w IH]; [done|]. intros [H1 H2]%not_elem_of_cons. simpl. rewrite decide_False by congruence. by rewrite IH. Qed.
  (** the token up to its first null character, or all of it *)
  Theorem C79_string w v : c_str w = v ↔ "000"%char ∉ v ∧ (w = v ∨ ∃ u, w = v ++ "000"%char :: u).
  Proof.
    split.
    - intros <-. induction w as [|c w [IH1 IH2]]; [split; [apply not_elem_of_nil|by left]|]. simpl. destruct (decide (c = "000"%char)) as [->|Hc].
      + split; [apply not_elem_of_nil|]. right. by exists w.
      + split; [by apply not_elem_of_cons|]. destruct IH2 as [E|[u E]]; [left; by rewrite <- E|right; exists u; simpl; by rewrite <- E].
    - intros [Hv [->|[u ->]]]; [by apply c_str_same|]. induction v as [|c v IH]; [done|]. apply not_elem_of_cons in Hv as [H1 H2]. simpl.
      rewrite decide_False by congruence. by rewrite IH.
  Qed.
  Lemma tokens_ne txt : tokens [] txt = [] → txt = [].
  Proof. intros E. by apply (PropSerText.C78_tokens txt []) in E as [<- _]. Qed.
  Lemma compare_none r ws : ∀ c, ws ≠ [] → is_Some (plain_compare r ws c).
  Proof.
    induction r as [|r IH]; intros c Hne; [by eexists|]. cbn [plain_compare].
    destruct (lookup_lt_is_Some_2 ws (N.to_nat (c mod N.of_nat (length ws)))) as [w ->]; [|by apply IH].
    destruct ws as [|w0 ws]; [done|]. pose proof (N.mod_lt c (N.of_nat (length (w0 :: ws)))). simpl length in *. lia.
  Qed.
  (** it is undefined for the empty text only *)
  Theorem C79_defined txt : is_Some (plain_run txt) ↔ txt ≠ [].
  Proof.
    unfold plain_run. split.
    - intros Hs ->. vm_compute in Hs. by destruct Hs.
    - intros Hne. destruct (compare_none 100 (c_str <$> tokens [] txt) 0) as [c ->]; [|by eexists]. intros E%fmap_nil_inv. by apply tokens_ne in E.
  Qed.
  (** the number of equal elements found in each of the 100 searches is between
      one and the length of the vector; all characters are counted ten times, and
      the sum is doubled each time *)
  Theorem C79_sum txt : txt ≠ [] → "000"%char ∉ txt → (100 * N.of_nat (length txt) < 2 ^ 64)%N →
    ∃ c, plain_run txt = Some (wrap (c + (2 ^ 20 - 1) * 10 * N.of_nat (length txt))) ∧ (100 <= c <= 100 * N.of_nat (length (tokens [] txt)))%N.
  Proof.
    intros Hne H0 Hb. unfold plain_run. destruct (proj1 (PropSerText.C78_tokens txt _) eq_refl) as [Hcat Htok].
    assert (Ec : c_str <$> tokens [] txt = tokens [] txt).
    { rewrite <- (list_fmap_id (tokens [] txt)) at 2. apply list_fmap_ext. intros i t Ht. apply c_str_same. intros Hin. apply H0. rewrite <- Hcat.
      apply elem_of_list_In, in_concat. exists t. split; apply elem_of_list_In; [by eapply elem_of_list_lookup_2|done]. }
    assert (Hlen : length (tokens [] txt) ≤ length txt).
    { rewrite <- Hcat at 2. destruct Htok as [Hf _]. clear -Hf. induction Hf as [|t ts Ht _ IH]; [done|]. simpl. rewrite app_length.
      enough (1 ≤ length t) by lia. destruct Ht as [(c&->&_)|[Ht _]]; [done|]. destruct t; [done|simpl; lia]. }
    rewrite Ec. destruct (plain_compare_bounds 100 (tokens [] txt) 0) as (c&->&Hc); [by intros E%tokens_ne|change (N.of_nat 100) with 100%N; lia|].
    exists c. split; [|change (N.of_nat 100) with 100%N in Hc; lia]. f_equal. rewrite <- wrap_r, plain_access_wrap, wrap_r. f_equal. f_equal.
    rewrite N.mul_0_r, N.add_0_l. assert (E : length (concat (concat (replicate 10 (tokens [] txt)))) = 10 * length txt).
    { generalize 10. clear -Hcat. intros r. induction r as [|r IH]; [done|]. simpl. rewrite concat_app, app_length, Hcat, IH. lia. }
    rewrite E. change (N.of_nat 20) with 20%N. lia.
  Qed.
End Sums.

Section Plain.
  Context (nm : nat → var) (Hnm : ∀ i j, nm i = nm j → i = j) (grows : nat → growth) (thr : bool).
  Notation prog := (prog (A:=word) (L:=word) (O:=end_of)).
  Notation env := (gmap var (tree word)).
  Notation wp := (wp (O:=end_of) (named nm) wmakes thr).
  Notation have := (have nm).
  Notation may_throw := (may_throw grows thr).
  Notation objs := (list (var * tree word)).
  Notation leaves := PropSerText.leaves.
  Implicit Types (M : env) (Q : end_of → env → Prop) (xs ys zs l : objs) (ws vs : list word) (w : word) (n m i : nat) (c s d : N).
  Lemma wp_leave xs o M n Q : have M xs n → Q o ∅ → wp (leave xs.*1 o) M Q.
  Proof. intros Hh HQ. eapply (wp_destroy_all nm wmakes thr xs M [] n); [by rewrite app_nil_r|]. by intros M' ->%have_empty. Qed.
  Lemma wp_new w l M n (k : bool → prog) Q : have M l n → (∀ M', have M' ((nm n, leaf w) :: l) (S n) → wp (k true) M' Q) → (thr = true → wp (k false) M Q) →
    wp (Call (ONew (nm n) w []) k) M Q.
  Proof.
    intros Hh Hk Hf. cbn. split; [by exists n|]. split; [eapply (have_none nm Hnm M l n n Hh), le_n|]. exists [], w. split; [constructor|]. split; [done|].
    split; [|done]. apply Hk. eapply (have_new nm Hnm); [done|apply le_n].
  Qed.
  Lemma wp_fill ws : ∀ xs vs M n k Q, have M xs n → xs.*2 = leaves vs →
    (∀ M' ys m, ys.*2 = leaves (vs ++ (c_str <$> ws)) → have M' ys m → wp (k ys.*1 m) M' Q) → (may_throw → Q Failed ∅) → wp (fill nm grows ws xs.*1 n k) M Q.
  Proof using Hnm.
    induction ws as [|w ws IH]; intros xs vs M n k Q Hh Hx Hk Hf; [apply Hk; [by rewrite app_nil_r|done]|]. cbn [fill].
    eapply wp_new; [exact Hh| |intros Ht; eapply wp_leave; [exact Hh|apply Hf; by left]]. intros M1 H1.
    eapply (wp_push_back nm Hnm grows wmakes thr xs (nm n) (leaf (c_str w)) _ [] (S n)).
    - eapply have_perm; [|exact H1]. by rewrite <- Permutation_middle, app_nil_r.
    - intros M2 ys m Hy H2. apply (have_perm nm _ _ ((nm n, leaf (c_str w)) :: ys)) in H2; [|by rewrite <- Permutation_middle, app_nil_r].
      apply have_drop in H2 as [H2 H3]. cbn. eexists. split; [exact H2|].
      eapply (IH ys (vs ++ [c_str w])); [exact H3|by rewrite Hy, Hx, PropSerText.leaves_app| |done]. intros M' zs m' Hz. rewrite <- app_assoc in Hz. by apply Hk.
    - intros Ht. change (nm n :: xs.*1) with (((nm n, leaf (c_str w)) :: xs).*1). eapply wp_leave; [exact H1|by apply Hf].
  Qed.
  Lemma wp_insert_all xs ys M n k f Q : have M (ys ++ xs) n →
    (∀ M' zs m, zs.*2 = ys.*2 ++ xs.*2 → have M' (zs ++ xs) m → wp (k zs.*1 m) M' Q) → (may_throw → wp f M Q) → wp (insert_all nm grows ys.*1 xs.*1 n k f) M Q.
  Proof using Hnm.
    intros Hh Hk Hf. unfold insert_all. destruct (grows n) eqn:E; [| |apply Hf; right; eauto];
      (eapply (wp_copy_all nm Hnm wmakes thr xs _ (ys ++ xs)); [exact Hh|intros z Hz; apply elem_of_app; by right|]; intros M1 zs m Hz H1).
    - rewrite <- fmap_app. apply Hk; [by rewrite fmap_app, Hz|]. eapply have_perm; [|exact H1]. rewrite (app_assoc zs), (Permutation_app_comm zs). done.
    - eapply (wp_copy_all nm Hnm wmakes thr ys _ (zs ++ ys ++ xs)); [exact H1|intros z Hz'; apply elem_of_app; right; apply elem_of_app; by left|].
      intros M2 ys' m' Hy H2. eapply (wp_destroy_all nm wmakes thr ys _ (ys' ++ zs ++ xs)).
      { eapply have_perm; [|exact H2]. rewrite (app_assoc ys' zs), (Permutation_app_comm (ys' ++ zs)), <- app_assoc. f_equiv. rewrite Permutation_app_comm, <- app_assoc. done. }
      intros M3 H3. rewrite <- fmap_app. apply Hk; [by rewrite fmap_app, Hz, Hy|]. by rewrite <- app_assoc.
  Qed.
  Lemma wp_copies r ws xs : ∀ ys vs M n k Q, have M (ys ++ xs) n → xs.*2 = leaves ws → ys.*2 = leaves vs →
    (∀ M' zs m, zs.*2 = leaves (vs ++ concat (replicate r ws)) → have M' (zs ++ xs) m → wp (k zs.*1 m) M' Q) → (may_throw → Q Failed ∅) →
    wp (copies nm grows r xs.*1 ys.*1 n k) M Q.
  Proof using Hnm.
    induction r as [|r IH]; intros ys vs M n k Q Hh Hx Hy Hk Hf; [apply Hk; [by rewrite app_nil_r|done]|]. cbn [copies].
    eapply wp_insert_all; [exact Hh| |intros Hm; rewrite <- fmap_app; eapply wp_leave; [exact Hh|by apply Hf]].
    intros M1 zs m Hz H1. eapply (IH zs (vs ++ ws)); [exact H1|done|by rewrite Hz, Hx, Hy, PropSerText.leaves_app| |done].
    intros M' us m' Hu. rewrite <- app_assoc in Hu. by apply Hk.
  Qed.
  Lemma lookup_have M l n x T : have M l n → (x, T) ∈ l → M !! x = Some T.
  Proof. intros (_&H&_). apply H. Qed.
  Lemma wp_count_in xs : ∀ ws y w l M n d k Q, have M l n → (∀ z, z ∈ xs → z ∈ l) → xs.*2 = leaves ws → (y, leaf w) ∈ l →
    wp (k (d + N.of_nat (length (filter (.= w) ws)))%N) M Q → wp (count_in xs.*1 y d k) M Q.
  Proof.
    induction xs as [|[x T] xs IH]; intros ws y w l M n d k Q Hh Hz Hx Hy Hk; (destruct ws as [|v ws]; [try done|try done]).
    - by rewrite N.add_0_r in Hk.
    - injection Hx as -> Hx. cbn. eexists _, _, _, _. split; [eapply lookup_have; [exact Hh|apply Hz; by left]|]. split; [done|].
      split; [eapply lookup_have; [exact Hh|done]|]. split; [done|]. rewrite filter_cons in Hk. intros b Hb.
      eapply (IH ws); [exact Hh|intros z Hz'; apply Hz; by right|done|exact Hy|]. destruct b.
      + rewrite decide_True in Hk by (destruct Hb as [Hb _]; by injection (Hb eq_refl)). simpl length in Hk. rewrite Nat2N.inj_succ in Hk.
        by rewrite <- N.add_assoc, N.add_1_l.
      + rewrite decide_False in Hk; [done|]. intros ->. destruct Hb as [_ Hb]. discriminate (Hb eq_refl).
  Qed.
  Lemma wp_compare r xs ws l M n k Q : ∀ c c', have M l n → (∀ z, z ∈ xs → z ∈ l) → xs.*2 = leaves ws → plain_compare r ws c = Some c' →
    wp (k c') M Q → wp (compare nm r xs.*1 c n k) M Q.
  Proof.
    intros c c' Hh Hz Hx. revert c. induction r as [|r IH]; intros c Hc Hk; [by injection Hc as ->|]. cbn [compare plain_compare] in *.
    assert (Hlen : length xs.*1 = length ws) by (rewrite fmap_length, <- (fmap_length snd xs), Hx; apply fmap_length). rewrite Hlen.
    destruct (ws !! _) as [w|] eqn:Ew; [|done].
    assert (∃ y, xs !! N.to_nat (c mod N.of_nat (length ws)) = Some (y, leaf w)) as [y Hy].
    { assert (E : xs.*2 !! N.to_nat (c mod N.of_nat (length ws)) = Some (leaf w)) by (rewrite Hx; unfold PropSerText.leaves; by rewrite list_lookup_fmap, Ew).
      rewrite list_lookup_fmap in E. destruct (xs !! _) as [[y T]|]; [|done]. injection E as ->. by exists y. }
    rewrite list_lookup_fmap, Hy. cbn [fmap option_fmap option_map fst]. eapply (wp_count_in xs ws y w l); [exact Hh|done|done|apply Hz; by eapply elem_of_list_lookup_2|].
    rewrite N.add_0_l. by apply IH.
  Qed.
  Lemma wp_sum_in xs : ∀ ws l M n s k Q, have M l n → (∀ z, z ∈ xs → z ∈ l) → xs.*2 = leaves ws → wp (k (plain_sum ws s)) M Q → wp (sum_in xs.*1 s k) M Q.
  Proof.
    induction xs as [|[x T] xs IH]; intros ws l M n s k Q Hh Hz Hx Hk; (destruct ws as [|w ws]; [try done|try done]).
    injection Hx as -> Hx. cbn. eexists _, _, _. split; [eapply lookup_have; [exact Hh|apply Hz; by left]|]. split; [done|].
    eapply IH; [exact Hh|intros z Hz'; apply Hz; by right|exact Hx|exact Hk].
  Qed.
  Lemma wp_access r xs ws l M n k Q : ∀ s, have M l n → (∀ z, z ∈ xs → z ∈ l) → xs.*2 = leaves ws → wp (k (plain_access r ws s)) M Q → wp (access r xs.*1 s k) M Q.
  Proof. intros s Hh Hz Hx. revert s. induction r as [|r IH]; intros s Hk; [done|]. cbn [access]. eapply wp_sum_in; [exact Hh|done|done|]. by apply IH. Qed.
  Local Opaque plain_access plain_compare wrap copies compare access.
  Lemma wp_measure txt c k Q : plain_run txt = Some c →
    (∀ M zs n, zs.*2 = leaves (concat (replicate 10 (c_str <$> tokens [] txt)) ++ (c_str <$> tokens [] txt)) → have M zs n → wp (k zs.*1 c) M Q) →
    (may_throw → Q Failed ∅) → wp (measure nm grows txt k) ∅ Q.
  Proof using Hnm.
    unfold plain_run, measure. destruct (plain_compare _ _ _) as [d|] eqn:Ed; [|discriminate]. intros E. apply (inj Some) in E. subst c. intros Hk Hf.
    apply (wp_fill (tokens [] txt) [] []); [apply have_nothing|done| |exact Hf]. intros M1 xs n1 Hx H1. simpl in Hx.
    eapply (wp_copies 10 (c_str <$> tokens [] txt) xs [] []); [exact H1|exact Hx|done| |exact Hf]. intros M2 ys n2 Hy H2. simpl app in Hy.
    eapply (wp_compare 100 xs); [exact H2|intros z Hz; apply elem_of_app; by right|exact Hx|exact Ed|].
    eapply (wp_access 20 ys); [exact H2|intros z Hz; apply elem_of_app; by left|exact Hy|]. rewrite <- fmap_app. eapply Hk; [|exact H2].
    rewrite fmap_app, Hx, Hy. unfold PropSerText.leaves. by rewrite <- fmap_app.
  Qed.
  Lemma wp_run txt c : plain_run txt = Some c → wp (run nm grows txt) ∅ (λ o M, M = ∅ ∧ (o = Sum c ∨ may_throw ∧ o = Failed)).
  Proof using Hnm.
    intros E. unfold run. eapply wp_measure; [exact E| |intros Hm; split; [done|by right]]. intros M zs n _ Hh. eapply wp_leave; [exact Hh|]. split; [done|by left].
  Qed.
  Lemma wp_main ls fs o0 : plain_main ls fs = Some o0 → wp (main nm grows ls fs) ∅ (λ o M, M = ∅ ∧ (o = o0 ∨ may_throw ∧ o = Failed)).
  Proof using Hnm.
    induction ls as [|l ls IH]; [intros [= <-]; by split; [|left]|]. destruct l as [|ch l]; [intros [= <-]; by split; [|left]|]. cbn [main plain_main]. cbv zeta.
    destruct (_ && _); [|apply IH]. destruct (opened _ _) as [txt|]; [|intros [= <-]; by split; [|left]].
    destruct (plain_run txt) as [c|] eqn:Er; [|done]. intros [= <-]. destruct (_ =? 1)%Z; [by split; [|left]|]. by apply wp_run.
  Qed.
End Plain.

(** ** With flyweights *)
Section Machine.
  Context (FS : factory wkey) (HF : factory_spec weqk FS) (cfg : config) (t0 t : tid) (Ht : lck cfg = false → t = t0).
  Context (nm : nat → var) (Hnm : ∀ i j, nm i = nm j → i = j) (grows : nat → growth).
  Notation state := (state (R:=wkey) (K:=wkey) (A:=word) FS).
  Notation own := (named nm).
  Notation reachable := (reachable wP FS cfg t0).
  Notation prun := (prun wP FS cfg fst t).
  Notation main := (main nm grows).
  Notation unused := (PropSerText.unused FS nm).
  Notation unused_agrees := (PropSerText.unused_agrees FS nm).
  Implicit Types s : state.
  Theorem C79_main s lines fs o0 ls : plain_main lines fs = Some o0 →
    reachable s → stack s t = [] → unused s → Forall (foreign own t) ls → Forall (on_time cfg t0) ls →
    ∃ s' w p, prun (s, false, main lines fs) ls = Some (s', w, p) ∧ reachable s' ∧
      ∀ o, p = Ret o → w = false ∧ stack s' t = [] ∧ unused s' ∧ (o = o0 ∨ o = Failed).
  Proof using HF Hnm Ht.
    intros Ho Hre Hst Hun Hf Hon. pose proof (wp_main nm Hnm grows true lines fs o0 Ho) as Hw.
    destruct (C64_transparent wP FS cfg weqk (λ _, True) weqk_equivalence wP_ok HF t0 fst wP_keys own wmakes wmakes_make t Ht s (main lines fs) ∅ ls)
      as (s'&w&p&M&Hp&Hre'&Hr&Hw'); [done|done|by apply unused_agrees|by eapply (wp_safe _ _ _ _ _ wmakes_fun)|done|done|].
    exists s', w, p. split; [done|]. split; [done|]. intros o ->. destruct w; [by destruct Hw' as (?&?&?)|]. destruct Hw' as [Hst' Hag].
    pose proof (wp_steps own wmakes true wmakes_fun _ _ _ _ _ Hw Hr) as [-> Hr']. split; [done|]. split; [done|].
    split; [by apply unused_agrees|]. destruct Hr' as [?|[_ ?]]; [by left|by right].
  Qed.
  Theorem C79_completes s lines fs o0 : plain_main lines fs = Some o0 → (∀ n, grows n ≠ Fails) → reachable s → stack s t = [] → unused s →
    ∃ ls s', Forall (foreign own t) ls ∧ Forall (on_time cfg t0) ls ∧ prun (s, false, main lines fs) ls = Some (s', false, Ret o0) ∧
      reachable s' ∧ quiescent s' ∧ unused s'.
  Proof using HF Hnm Ht.
    intros Ho Hg Hre Hst Hun.
    destruct (C64_completes wP FS cfg weqk (λ _, True) weqk_equivalence wP_ok HF t0 fst wP_keys own wmakes wmakes_make t Ht (main lines fs) s ∅)
      as (ls&s'&o&M&H1&H2&H3&Hr&Hre'&Hq&Hag); [done|done|by apply unused_agrees|by eapply (wp_safe _ _ _ _ _ wmakes_fun), wp_main|].
    pose proof (wp_steps own wmakes false wmakes_fun _ _ _ _ _ (wp_main nm Hnm grows false lines fs o0 Ho) Hr) as [-> Hr'].
    destruct Hr' as [->|[[?|[n Hn]] _]]; [|done|by destruct (Hg n)].
    exists ls, s'. split; [by eapply quiet_foreign|]. split; [done|]. split; [done|]. split; [done|]. split; [done|]. by apply unused_agrees.
  Qed.
  (** the bytes reported (E/ 235): the program then has eleven flyweights for each
      token and, when nobody else has any, each token is stored once *)
  Theorem C79_memory s txt n0 ls : plain_run txt = Some n0 →
    reachable s → stack s t = [] → unused s → Forall (foreign own t) ls → Forall (on_time cfg t0) ls →
    let ws := c_str <$> tokens [] txt in
    ∃ s' w p, prun (s, false, measure nm grows txt (λ _ n, Ret (Sum n))) ls = Some (s', w, p) ∧ reachable s' ∧
      ∀ o, p = Ret o → o = Failed ∧ unused s' ∨ o = Sum n0 ∧
        (∃ xs, NoDup xs ∧ length xs = 11 * length ws ∧ ∀ x, own x → is_Some (vars s' !! x) ↔ x ∈ xs) ∧
        (trk cfg = true → quiescent s' → (∀ y, is_Some (vars s' !! y) → own y) →
          size (heap s') = length (remove_dups ws) ∧ ∀ T, (∃ a, shows wP FS fst s' a T) ↔ ∃ v, v ∈ ws ∧ T = leaf v).
  Proof using HF Hnm Ht.
    intros Ho Hre Hst Hun Hf Hon ws.
    pose proof (wp_measure nm Hnm grows true txt n0 (λ _ n, Ret (Sum n))
      (λ o M, o = Failed ∧ M = ∅ ∨ o = Sum n0 ∧ ∃ zs n, zs.*2 = PropSerText.leaves (concat (replicate 10 ws) ++ ws) ∧ have nm M zs n) Ho) as Hw.
    destruct (C64_transparent wP FS cfg weqk (λ _, True) weqk_equivalence wP_ok HF t0 fst wP_keys own wmakes wmakes_make t Ht s (measure nm grows txt (λ _ n, Ret (Sum n))) ∅ ls)
      as (s'&w&p&M&Hp&Hre'&Hr&Hw'); [done|done|by apply unused_agrees| |done|done|].
    { eapply (wp_safe _ _ _ _ _ wmakes_fun), Hw; [|intros _; by left]. intros M zs n Hz Hh. right. split; [done|]. by exists zs, n. }
    exists s', w, p. split; [done|]. split; [done|]. intros o ->. destruct w; [by destruct Hw' as (?&?&?)|]. destruct Hw' as [Hst' Hag].
    apply (λ H, wp_steps own wmakes true wmakes_fun _ _ _ _ _ H Hr) in Hw; [|intros M' zs n Hz Hh; right; split; [done|by exists zs, n]|intros _; by left].
    destruct Hw as [[-> ->]|(->&zs&n&Hz&Hh)]; [left; split; [done|by apply unused_agrees]|]. right. split; [done|]. destruct Hh as (Hd&HM&Hn). destruct Hag as [Ha _].
    assert (Hvals : ∀ T, T ∈ zs.*2 ↔ ∃ v, v ∈ ws ∧ T = leaf v).
    { intros T. rewrite Hz. unfold PropSerText.leaves. rewrite elem_of_list_fmap. split.
      - intros (v&->&Hv). exists v. split; [|done]. apply elem_of_app in Hv as [Hv|Hv]; [|done]. revert Hv. generalize 10. intros r. induction r as [|r IH]; [by intros ?%elem_of_nil|].
        simpl. intros [?|?]%elem_of_app; auto.
      - intros (v&Hv&->). exists v. split; [done|]. apply elem_of_app. by right. }
    assert (Hlen : length zs = 11 * length ws).
    { rewrite <- (fmap_length snd zs), Hz. unfold PropSerText.leaves. rewrite fmap_length, app_length.
      assert (E : ∀ r, length (concat (replicate r ws)) = r * length ws) by (intros r; induction r as [|r IH]; [done|]; simpl; by rewrite app_length, IH). rewrite E. lia. }
    split.
    - exists zs.*1. split; [done|]. split; [by rewrite fmap_length|]. intros x Hx. specialize (Ha x Hx). destruct (M !! x) as [T|] eqn:ET.
      + pose proof (proj1 (HM x T) ET) as Hin. split; [intros _; apply elem_of_list_fmap; by exists (x, T)|]. intros _. destruct Ha as ([h r]&Hv&_).
        unfold value_of in Hv. destruct (vars s' !! x); [by eexists|done].
      + cbn in Ha. rewrite Ha. split; [by intros [? ?]|]. intros ([y T]&->&Hin)%elem_of_list_fmap. apply HM in Hin. cbn in ET. congruence.
    - intros Htr Hq Hall. destruct (C64_minimal wP FS cfg weqk (λ _, True) weqk_equivalence wP_ok HF t0 fst wP_keys s' Htr Hre' Hq) as (Q1&Q2&Q3).
      assert (HT : ∀ T, (∃ a, shows wP FS fst s' a T) ↔ ∃ v, v ∈ ws ∧ T = leaf v).
      { intros T. rewrite Q3. split.
        - intros (y&[h r]&W&path&Hv&HW&Hsub). pose proof Hv as Hy.
          apply (value_of_var wP FS cfg weqk (λ _, True) HF t0) in Hy as (Hy&_); [|by apply (reach_inv wP FS cfg weqk (λ _, True) weqk_equivalence wP_ok HF t0)].
          pose proof (Ha y (Hall y (ex_intro _ _ Hy))) as Hd'. destruct (M !! y) as [U|] eqn:EU; [|cbn in Hd'; congruence].
          destruct Hd' as (v'&Hv'&Hs'). rewrite Hv in Hv'. injection Hv' as <-. assert (W = U) as -> by (by apply (Q2 h h)).
          apply HM in EU. destruct (proj1 (Hvals U)) as (v&Hin&->); [apply elem_of_list_fmap; by exists (y, U)|]. exists v. split; [done|]. destruct path; [by injection Hsub|done].
        - intros (v&Hv&->). assert (Hin : leaf v ∈ zs.*2) by (apply Hvals; eauto). apply elem_of_list_fmap in Hin as ([y U]&E&Hin). cbn in E. subst U. pose proof Hin as EU. apply HM in EU.
          destruct (Hn y) as (i&->&_); [apply elem_of_list_fmap; by exists (y, leaf v)|]. pose proof (Ha (nm i) (ex_intro _ i eq_refl)) as Hd'. rewrite EU in Hd'. destruct Hd' as (v'&Hv'&Hs').
          by exists (nm i), v', (leaf v), []. }
      split; [|done]. rewrite <- (fmap_length (λ w, leaf w)). eapply (PropTeam.entries_count wP FS fst s'); [done|done| |].
      + apply NoDup_fmap_2; [by intros ? ? [= ->]|apply NoDup_remove_dups].
      + intros T. rewrite HT, elem_of_list_fmap. split; intros (v&?&?); exists v; [by rewrite elem_of_remove_dups|by rewrite <- elem_of_remove_dups].
  Qed.
  Local Transparent plain_access plain_compare wrap copies compare access.
  (** E/ 219 with an empty file: division by zero *)
  Theorem C79_empty s lines fs : plain_main lines fs = None → (∀ n, grows n ≠ Fails) → unused s → prun (s, false, main lines fs) [Go] = None.
  Proof using.
    intros Hn Hg Hun. assert (main lines fs = undefined nm 0) as ->.
    { revert Hn. clear -Hg. induction lines as [|l ls IH]; [done|]. destruct l as [|c l]; [done|]. cbn [Perf.main plain_main]. cbv zeta. destruct (_ && _); [|done].
      destruct (opened _ _) as [txt|]; [|done]. destruct (plain_run txt) as [c'|] eqn:Er; [done|]. intros _. destruct (_ =? 1)%Z; [done|].
      destruct (decide (txt = [])) as [->|Hne]; [|apply C79_defined in Hne as [? ?]; congruence].
      assert (Hc : ∀ r k, copies nm grows r [] [] 0 k = k [] 0).
      { clear -Hg. induction r as [|r IH]; intros k; [done|]. cbn [copies]. unfold insert_all. specialize (Hg 0). destruct (grows 0); [apply IH|apply IH|done]. }
      unfold run, measure. cbn [tokens some_token fill]. by rewrite Hc. }
    specialize (Hun 0). cbn. unfold live. rewrite Hun. by destruct (stack s t).
  Qed.
  Theorem C79_empty_refuted : (∀ n, grows n ≠ Fails) → ∃ lines fs, ∀ s, unused s → prun (s, false, main lines fs) [Go] = None.
  Proof using.
    intros Hg. exists [text "2"; text "empty"], {[ text "empty" := [] ]}. intros s Hun. apply C79_empty; [vm_compute; reflexivity|exact Hg|exact Hun].
  Qed.
End Machine.

(** ** Examples: the second is with a null character *)
Import Strings.String.
Definition perf_files : files := {[ text "in" := text "ab-ab c"; text "nul" := ["a"%char; "000"%char; "b"%char]; text "empty" := [] ]}.
Example C79_shown :
  plain_main [text "2"; text "in"] perf_files = Some (Sum (167 + (2 ^ 20 - 1) * 10 * 7)) ∧
  plain_main [text "0"; text "1"; text "nul"] perf_files = Some (Sum (100 + (2 ^ 20 - 1) * 10)) ∧
  plain_main [text "6"; text "5"; text "none"] perf_files = Some No_file ∧ plain_main [text "6"; []; text "5"] perf_files = Some No_input ∧
  plain_main [text "1"; text "empty"] perf_files = None.
Proof. vm_compute. split_and!; reflexivity. Qed.
Notation bFS := PropBasic.bFS.
Notation even := PropBasic.even.
Definition meanwhile (n : nat) : list (clab (A:=word)) := [Env (LStart 2 (ONew 1 (text "ab") []))] ++ PropBasic.rounds n 0 false.
Lemma meanwhile_foreign n : Forall (foreign (named even) 1) (meanwhile n).
Proof.
  unfold meanwhile. apply Forall_app_2; [|apply Forall_concat, Forall_fmap, Forall_forall; intros j _; repeat constructor; simpl; done].
  constructor; [|constructor]. intros _ x [j ->]; simpl; apply bool_decide_eq_false; unfold PropBasic.even; lia.
Qed.
Example C79_at_work :
  PropSerText.unused bFS even (init bFS) ∧ Forall (foreign (named even) 1) (meanwhile 2600) ∧ Forall (on_time rc 1) (meanwhile 2600) ∧
  PropBasic.at_end (prun wP bFS rc fst 1 (init bFS, false, main even PropBasic.growth3 [text "2"; text "in"] perf_files) (meanwhile 2600))
    = Some (Sum (167 + (2 ^ 20 - 1) * 10 * 7), 1, [1]).
Proof. split; [done|]. split; [apply meanwhile_foreign|]. split; [apply Forall_forall; intros [l|] _; done|]. vm_compute. reflexivity. Qed.
(** "ab-ab c" has five tokens, four of them different *)
Example C79_stored :
  (λ r, (r.1, List.length r.2)) <$> PropBasic.at_end (prun wP bFS rc fst 1 (init bFS, false, measure even PropBasic.growth3 (text "ab-ab c") (λ _ n, Ret (Sum n)))
    (PropBasic.rounds 2600 0 false)) = Some (Sum (167 + (2 ^ 20 - 1) * 10 * 7), 4, 55) ∧
  remove_dups (c_str <$> tokens [] (text "ab-ab c")) = text <$> ["-"; "ab"; " "; "c"]%string.
Proof. vm_compute. split; reflexivity. Qed.
Example C79_exception :
  PropBasic.at_end (prun wP bFS rc fst 1 (init bFS, false, main even PropBasic.growth3 [text "3"; text "in"] perf_files)
    (PropBasic.rounds 40 0 false ++ PropBasic.rounds 200 40 true)) = Some (Failed, 0, []).
Proof. vm_compute. reflexivity. Qed.

Print Assumptions C79_defined.
Print Assumptions C79_sum.
Print Assumptions C79_string.
Print Assumptions C79_main.
Print Assumptions C79_completes.
Print Assumptions C79_memory.
Print Assumptions C79_empty.
Print Assumptions C79_empty_refuted.
