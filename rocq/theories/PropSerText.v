(** C78: example/serialization.cpp.  Whatever other threads do, it writes the
    files it would with strings; a text saved as an archive and loaded from it is
    the same text, and each token is in the archive once. *)
From Coq Require Import Ascii String ZArith.
From Verif Require Import SerializeProofs CoreRace Policies Instances PropInner Client PropClient PropParallel.
From Verif Require PropBasic.
From Verif Require Import Factory.
From Verif Require Import Parallel SerText.
Open Scope list_scope.
Notation leaf w := (Tree w []).

Section Plain.
  Context (ci : codec nat ascii) (ck : codec word ascii) (can : word → bool).
  Context (nm : nat → var) (Hnm : ∀ i j, nm i = nm j → i = j) (grows : nat → growth) (thr : bool).
  Notation prog := (prog (A:=word) (L:=word) (O:=outcome)).
  Notation env := (gmap var (tree word)).
  Notation wp := (wp (O:=outcome) (named nm) wmakes thr).
  Notation have := (have nm).
  Notation may_throw := (may_throw grows thr).
  Notation objs := (list (var * tree word)).
  Notation fill := (fill nm grows).
  Notation save_all := (save_all ci ck nm grows).
  Notation load_all := (load_all ci ck nm grows).
  Implicit Types (M : env) (Q : outcome → env → Prop) (xs ys tab l : objs) (ws vs tv : list word) (w : word) (n m i : nat).
  Definition leaves ws : list (tree word) := (λ w, leaf w) <$> ws.
  Lemma leaves_app ws vs : leaves (ws ++ vs) = leaves ws ++ leaves vs.
  Proof. apply fmap_app. Qed.
  Lemma lookup_have M l n x T : have M l n → (x, T) ∈ l → M !! x = Some T.
  Proof. intros (_&H&_). apply H. Qed.
  Lemma more_have M l n n' : have M l n → n ≤ n' → have M l n'.
  Proof. intros (Hd&H&Hn) Hle. split; [done|]. split; [done|]. intros x (i&->&?)%Hn. exists i. split; [done|lia]. Qed.

  Lemma wp_new w l M n (k : bool → prog) Q : have M l n → (∀ M', have M' ((nm n, leaf w) :: l) (S n) → wp (k true) M' Q) → (thr = true → wp (k false) M Q) →
    wp (Call (ONew (nm n) w []) k) M Q.
  Proof.
    intros Hh Hk Hf. cbn. split; [by exists n|]. split; [eapply (have_none nm Hnm M l n n Hh), le_n|]. exists [], w. split; [constructor|]. split; [done|].
    split; [|done]. apply Hk. eapply (have_new nm Hnm); [done|apply le_n].
  Qed.
  Lemma wp_drop x T l M n p Q : have M ((x, T) :: l) n → (∀ M', have M' l n → wp p M' Q) → wp (Call (ODestroy x) (λ _, p)) M Q.
  Proof. intros [HT Hh]%have_drop Hp. cbn. exists T. split; [done|]. by apply Hp. Qed.

  Lemma wp_fill ws : ∀ xs vs M n k f Q, have M xs n → xs.*2 = leaves vs →
    (∀ M' ys m, ys.*2 = leaves (vs ++ ws) → have M' ys m → wp (k ys.*1 m) M' Q) →
    (may_throw → ∀ M' ys m, have M' ys m → wp (f ys.*1) M' Q) → wp (fill ws xs.*1 n k f) M Q.
  Proof using Hnm.
    induction ws as [|w ws IH]; intros xs vs M n k f Q Hh Hx Hk Hf; [apply Hk; [by rewrite app_nil_r|done]|]. cbn [SerText.fill].
    eapply wp_new; [exact Hh| |intros Ht; eapply Hf; [by left|exact Hh]]. intros M1 H1.
    eapply (wp_push_back nm Hnm grows wmakes thr xs (nm n) (leaf w) M1 [] (S n)).
    - eapply have_perm; [|exact H1]. by rewrite <- Permutation_middle, app_nil_r.
    - intros M2 ys m Hy H2. eapply wp_drop; [eapply have_perm; [|exact H2]; by rewrite <- Permutation_middle, app_nil_r|].
      intros M3 H3. eapply (IH ys (vs ++ [w])); [exact H3|by rewrite Hy, Hx, leaves_app| |done]. intros M' zs m' Hz. rewrite <- app_assoc in Hz. by apply Hk.
    - intros Ht. change (nm n :: xs.*1) with (((nm n, leaf w) :: xs).*1). by eapply Hf.
  Qed.
  Lemma wp_locate x w tab : ∀ tv l M n i k Q, have M l n → (x, leaf w) ∈ l → (∀ z, z ∈ tab → z ∈ l) → tab.*2 = leaves tv →
    wp (k (i + match list_find (w =.) tv with Some (j, _) => j | None => length tv end)) M Q → wp (locate x tab.*1 i k) M Q.
  Proof.
    induction tab as [|[z T] tab IH]; intros tv l M n i k Q Hh Hx Hz Ht Hk; (destruct tv as [|v tv]; [try done|try done]).
    - simpl in Hk. by rewrite Nat.add_0_r in Hk.
    - injection Ht as -> Ht. cbn. eexists _, _, _, _. split; [eapply lookup_have; [exact Hh|done]|]. split; [done|].
      split; [eapply lookup_have; [exact Hh|apply Hz; by left]|]. split; [done|]. simpl in Hk. intros [] Hb.
      + destruct Hb as [Hb _]. injection (Hb eq_refl) as ->. rewrite decide_True in Hk by done. by rewrite Nat.add_0_r in Hk.
      + rewrite decide_False in Hk by (intros ->; destruct Hb as [_ Hb]; discriminate (Hb eq_refl)).
        eapply (IH tv l M n); [exact Hh|exact Hx|intros y Hy; apply Hz; by right|exact Ht|].
        destruct (list_find (w =.) tv) as [[j ?]|]; simpl in Hk |- *; rewrite <- ?Nat.add_succ_r; exact Hk.
  Qed.
  Lemma wp_save_all xs : ∀ ws tab tv l M out n k f Q, have M (tab ++ l) n → (∀ z, z ∈ xs → z ∈ l) → xs.*2 = leaves ws → tab.*2 = leaves tv →
    (∀ M' tab' n', have M' (tab' ++ l) n' → wp (k tab'.*1 (plain_save ci ck ws tv out) n') M' Q) →
    (may_throw → ∀ M' tab' out' n', have M' (tab' ++ l) n' → wp (f tab'.*1 out' n') M' Q) → wp (save_all xs.*1 tab.*1 out n k f) M Q.
  Proof using Hnm.
    induction xs as [|[x T] xs IH]; intros ws tab tv l M out n k f Q Hh Hz Hx Ht Hk Hf; (destruct ws as [|w ws]; [try done|try done]); [by apply Hk|].
    injection Hx as -> Hx. cbn [fmap list_fmap SerText.save_all fst]. assert (Hxl : (x, leaf w) ∈ tab ++ l) by (apply elem_of_app; right; apply Hz; by left).
    assert (Hlen : length tab.*1 = length tv) by (rewrite fmap_length, <- (fmap_length snd tab), Ht; apply fmap_length).
    eapply wp_locate; [exact Hh|exact Hxl|intros z Hz'; apply elem_of_app; by left|exact Ht|]. cbn [plain_save] in Hk. cbv zeta. rewrite Nat.add_0_l, Hlen.
    destruct (list_find (w =.) tv) as [[j v]|] eqn:E.
    - apply list_find_Some in E as (E&_). rewrite decide_False; [|apply lookup_lt_Some in E; intros ->; by apply Nat.lt_irrefl in E].
      eapply IH; [exact Hh|intros z Hz'; apply Hz; by right|done|done|exact Hk|done].
    - rewrite decide_True by done. cbn. eexists _, _, _. split; [eapply lookup_have; [exact Hh|done]|]. split; [done|].
      assert (Hgo : wp (Call (OCopy (nm n) x) (λ _, save_all xs.*1 (tab.*1 ++ [nm n]) ((out ++ enc ci (length tv)) ++ enc ck w) (S n) k f)) M Q).
      { cbn. split; [by exists n|]. split; [eapply (have_none nm Hnm _ _ n n Hh), le_n|]. exists (leaf w). split; [eapply lookup_have; [exact Hh|done]|].
        replace (tab.*1 ++ [nm n]) with ((tab ++ [(nm n, leaf w)]).*1) by (by rewrite fmap_app).
        eapply (IH ws _ (tv ++ [w])); [|intros z Hz'; apply Hz; by right|done|by rewrite fmap_app, Ht, leaves_app|exact Hk|done].
        eapply have_perm; [|eapply (have_new nm Hnm); [exact Hh|apply le_n]]. rewrite <- app_assoc. apply Permutation_middle. }
      destruct (grows n) eqn:Eg; [exact Hgo|exact Hgo|]. eapply Hf; [right; by exists n|exact Hh].
  Qed.

  Lemma wp_defaults m : ∀ xs M n k f Q, have M xs n → (∀ M' ys n', length ys = length xs + m → have M' ys n' → wp (k ys.*1 n') M' Q) →
    (may_throw → ∀ M' ys n', have M' ys n' → wp (f ys.*1) M' Q) → wp (defaults nm m xs.*1 n k f) M Q.
  Proof using Hnm.
    induction m as [|m IH]; intros xs M n k f Q Hh Hk Hf; [apply Hk; [by rewrite Nat.add_0_r|done]|]. cbn [defaults].
    eapply wp_new; [exact Hh| |intros Ht; eapply Hf; [by left|exact Hh]]. intros M1 H1.
    replace (xs.*1 ++ [nm n]) with ((xs ++ [(nm n, leaf ([] : word))]).*1) by (by rewrite fmap_app).
    eapply IH; [eapply have_perm; [|exact H1]; rewrite <- Permutation_middle, app_nil_r; done| |done].
    intros M' ys n' Hl. apply Hk. rewrite Hl, app_length. simpl. clear. lia.
  Qed.
  Lemma wp_assign_from x U z w tab i l M n (k : nat → prog) Q : have M ((x, U) :: tab ++ l) n → tab !! i = Some (z, leaf w) →
    (∀ M', have M' ((x, leaf w) :: tab ++ l) (S n) → wp (k (S n)) M' Q) → wp (assign_from nm x tab.*1 i n k) M Q.
  Proof using Hnm.
    intros Hh Ht Hk. unfold assign_from. rewrite list_lookup_fmap, Ht. cbn. split; [by exists n|]. split; [eapply (have_none nm Hnm _ _ n n Hh), le_n|].
    exists (leaf w). split; [eapply lookup_have; [exact Hh|right; apply elem_of_app; left; by eapply elem_of_list_lookup_2]|].
    pose proof (have_new nm Hnm _ _ n n (leaf w) Hh (le_n n)) as H1. eexists _, _. split; [eapply lookup_have; [exact H1|by right; left]|]. split; [eapply lookup_have; [exact H1|by left]|].
    apply (have_perm nm _ _ ((x, U) :: (nm n, leaf w) :: tab ++ l)) in H1; [|apply Permutation_swap]. apply (PropBasic.set_have nm _ _ _ _ _ (leaf w)) in H1.
    apply (have_perm nm _ _ ((nm n, leaf w) :: (x, leaf w) :: tab ++ l)) in H1; [|apply Permutation_swap]. apply have_drop in H1 as [H1 H2].
    eexists. split; [exact H1|]. by apply Hk.
  Qed.
  Lemma wp_load_all xs : ∀ dn dv tab tv inp M n k f Q, have M (dn ++ xs ++ tab) n → dn.*2 = leaves dv → tab.*2 = leaves tv →
    (∀ ws M' ys tab' n', plain_load ci ck (length xs) tv inp = Some ws → ys.*1 = dn.*1 ++ xs.*1 → ys.*2 = leaves (dv ++ ws) → have M' (ys ++ tab') n' →
      wp (k tab'.*1 n') M' Q) →
    (may_throw ∨ plain_load ci ck (length xs) tv inp = None → ∀ M' ys tab' n', ys.*1 = dn.*1 ++ xs.*1 → have M' (ys ++ tab') n' → wp (f tab'.*1) M' Q) →
    wp (load_all xs.*1 tab.*1 inp n k f) M Q.
  Proof using Hnm.
    induction xs as [|[x U] xs IH]; intros dn dv tab tv inp M n k f Q Hh Hd Ht Hk Hf.
    { eapply (Hk [] M dn); [done|by rewrite app_nil_r|by rewrite app_nil_r|exact Hh]. }
    cbn [fmap list_fmap SerText.load_all fst].
    assert (Hf0 : may_throw ∨ plain_load ci ck (S (length xs)) tv inp = None → ∀ M tab n, have M (dn ++ ((x, U) :: xs) ++ tab) n → wp (f tab.*1) M Q).
    { intros Hm M' tab' n' Hh'. eapply (Hf Hm M' (dn ++ (x, U) :: xs)); [by rewrite fmap_app|rewrite <- app_assoc; exact Hh']. }
    cbn [length plain_load] in Hk, Hf, Hf0. destruct (dec ci inp) as [[i inp1]|]; [|eapply Hf0; [by right|exact Hh]].
    assert (Hlen : length tab = length tv) by (rewrite <- (fmap_length snd tab), Ht; apply fmap_length). rewrite fmap_length, Hlen.
    (** the rest, once the flyweight is in the table *)
    assert (Hgo : ∀ M tab tv inp w n, have M (dn ++ ((x, U) :: xs) ++ tab) n → tab.*2 = leaves tv → tv !! i = Some w →
      (∀ ws M' ys tab' n', plain_load ci ck (length xs) tv inp = Some ws → ys.*1 = dn.*1 ++ x :: xs.*1 → ys.*2 = leaves (dv ++ w :: ws) → have M' (ys ++ tab') n' →
        wp (k tab'.*1 n') M' Q) →
      (may_throw ∨ plain_load ci ck (length xs) tv inp = None → ∀ M' ys tab' n', ys.*1 = dn.*1 ++ x :: xs.*1 → have M' (ys ++ tab') n' → wp (f tab'.*1) M' Q) →
      wp (assign_from nm x tab.*1 i n (λ n, load_all xs.*1 tab.*1 inp n k f)) M Q).
    { clear -IH Hd Hnm. intros M tab tv inp w n Hh Ht Hi Hk Hf.
      assert (∃ z, tab !! i = Some (z, leaf w)) as [z Hz].
      { assert (E : tab.*2 !! i = Some (leaf w)) by (rewrite Ht; unfold leaves; by rewrite list_lookup_fmap, Hi). rewrite list_lookup_fmap in E.
        destruct (tab !! i) as [[z T]|]; [|done]. injection E as ->. by exists z. }
      eapply (wp_assign_from x U z w tab i (dn ++ xs)); [|done|].
      { eapply have_perm; [|exact Hh]. simpl. rewrite <- Permutation_middle. f_equiv. rewrite (Permutation_app_comm tab), <- app_assoc. done. }
      intros M1 H1. eapply (IH (dn ++ [(x, leaf w)]) (dv ++ [w]) tab tv).
      - eapply have_perm; [|exact H1]. rewrite <- app_assoc. simpl. rewrite <- Permutation_middle. f_equiv. rewrite (Permutation_app_comm tab), <- app_assoc. done.
      - by rewrite fmap_app, Hd, leaves_app.
      - done.
      - intros ws M' ys tab' n' Hl Hy1 Hy2. apply (Hk ws); [done|by rewrite Hy1, fmap_app, <- app_assoc|by rewrite Hy2, <- app_assoc].
      - intros Hm M' ys tab' n' Hy. eapply (Hf Hm). by rewrite Hy, fmap_app, <- app_assoc. }
    assert (Hcons : ∀ (w : word) (o : option (list word)), cons w <$> o = None → o = None) by (by intros w []).
    destruct (decide (length tv < i)) as [Hi|Hi].
    { eapply Hf0; [|exact Hh]. right. rewrite (lookup_ge_None_2 tv i) by (clear -Hi; lia). rewrite decide_False; [done|clear -Hi; lia]. }
    destruct (decide (i = length tv)) as [Ei|Ei].
    - rewrite (lookup_ge_None_2 tv i) in Hk, Hf, Hf0 by (rewrite Ei; apply le_n).
      destruct (dec ck inp1) as [[w inp2]|]; [|eapply Hf0; [by right|exact Hh]].
      eapply wp_new; [exact Hh| |intros Hth; eapply Hf0; [by left; left|exact Hh]]. intros M1 H1.
      eapply (wp_push_back nm Hnm grows wmakes thr tab (nm n) (leaf w) M1 (dn ++ (x, U) :: xs) (S n)).
      + eapply have_perm; [|exact H1]. rewrite <- Permutation_middle. f_equiv. rewrite (app_assoc dn). apply Permutation_app_comm.
      + intros M2 ys m Hy H2. eapply wp_drop; [eapply have_perm; [|exact H2]; rewrite <- Permutation_middle; reflexivity|].
        intros M3 H3. eapply (Hgo M3 ys (tv ++ [w])); [|by rewrite Hy, Ht, leaves_app|by rewrite Ei; apply list_lookup_middle| |].
        * eapply have_perm; [|exact H3]. rewrite (app_assoc dn). apply Permutation_app_comm.
        * intros ws M' zs tab' n' Hl. eapply (Hk (w :: ws)). by rewrite Hl.
        * intros [Hm|Hm]; eapply Hf; [by left|right; by rewrite Hm].
      + intros Hm. change (nm n :: tab.*1) with (((nm n, leaf w) :: tab).*1). eapply (Hf0 (or_introl Hm)).
        eapply have_perm; [|exact H1]. rewrite (app_assoc dn), (app_assoc dn). apply Permutation_middle.
    - destruct (lookup_lt_is_Some_2 tv i) as [w Hw]; [clear -Hi Ei; lia|]. rewrite Hw in Hk, Hf. eapply (Hgo M tab tv); [exact Hh|done|exact Hw| |].
      + intros ws M' zs tab' n' Hl. eapply (Hk (w :: ws)). by rewrite Hl.
      + intros [Hm|Hm]; eapply Hf; [by left|right; by rewrite Hm].
  Qed.
  Lemma wp_write xs : ∀ ws l M n out k Q, have M l n → (∀ z, z ∈ xs → z ∈ l) → xs.*2 = leaves ws → wp (k (out ++ concat ws)) M Q → wp (write xs.*1 out k) M Q.
  Proof.
    induction xs as [|[x T] xs IH]; intros ws l M n out k Q Hh Hz Hx Hk; (destruct ws as [|w ws]; [try done|try done]).
    - by rewrite app_nil_r in Hk.
    - injection Hx as -> Hx. cbn. eexists _, _, _. split; [eapply lookup_have; [exact Hh|apply Hz; by left]|]. split; [done|].
      eapply IH; [exact Hh|intros z Hz'; apply Hz; by right|done|]. by rewrite <- app_assoc.
  Qed.
  Lemma wp_leave xs o M n Q : have M xs n → Q o ∅ → wp (leave xs.*1 o) M Q.
  Proof. intros Hh HQ. eapply (wp_destroy_all nm wmakes thr xs M [] n); [by rewrite app_nil_r|]. by intros M' ->%have_empty. Qed.

  Notation main := (main ci ck can nm grows).
  Notation plain_main := (plain_main ci ck can).
  Lemma next_length ls : length (next ls) ≤ length ls.
  Proof. destruct ls; simpl; lia. Qed.
  Lemma wp_main_all N : ∀ ls fs n M Q, length ls ≤ N → have M [] n →
    (∀ o M', (o.1 ≠ Exited → M' = ∅) → o = plain_main ls fs ∨ may_throw ∧ o.1 = Threw → Q o M') → wp (main ls fs n) M Q.
  Proof using Hnm.
    induction N as [|N IH]; intros ls fs n M Q Hl Hh HQ; (destruct ls as [|l ls]; [apply HQ; [intros _; by eapply have_empty|by left]|]); [simpl in Hl; lia|].
    destruct l as [|c l]; [apply HQ; [intros _; by eapply have_empty|by left]|]. remember (c :: l) as l1 eqn:El.
    assert (E1 : main (l1 :: ls) fs n =
      if (choice l1 =? 1)%Z then save_file ci ck can nm grows (line ls) (line (next ls)) fs n (λ fs n, main (next (next ls)) fs n)
      else if (choice l1 =? 2)%Z then load_file ci ck can nm grows (line ls) (line (next ls)) fs n (λ fs n, main (next (next ls)) fs n)
      else main ls fs n) by (by subst l1).
    assert (E2 : plain_main (l1 :: ls) fs =
        let a := line ls in let b := line (next ls) in
        if (choice l1 =? 1)%Z then
          match opened fs a with
          | Some txt => if writable can b then plain_main (next (next ls)) (<[b:=plain_save ci ck (tokens [] txt) [] (enc ci (length (tokens [] txt)))]> fs)
                        else (Exited, fs)
          | None => (Exited, fs)
          end
        else if (choice l1 =? 2)%Z then
          match opened fs a with
          | Some inp =>
              match dec ci inp with
              | Some (m, inp) =>
                  match plain_load ci ck m [] inp with
                  | Some ws => if writable can b then plain_main (next (next ls)) (<[b:=concat ws]> fs) else (Exited, fs)
                  | None => (Threw, fs)
                  end
              | None => (Threw, fs)
              end
          | None => (Exited, fs)
          end
        else plain_main ls fs) by (by subst l1).
    rewrite E1. rewrite E2 in HQ. cbv zeta in HQ. clear E1 E2 El. pose proof (next_length ls). pose proof (next_length (next ls)). simpl in Hl.
    assert (Hl2 : length (next (next ls)) ≤ N) by lia. assert (Hl1 : length ls ≤ N) by lia.
    destruct (choice l1 =? 1)%Z; [|destruct (choice l1 =? 2)%Z; [|by eapply IH]].
    - unfold save_file. destruct (opened fs (line ls)) as [txt|]; [|apply HQ; [done|by left]].
      eapply (wp_fill (tokens [] txt) [] []); [exact Hh|done| |].
      2:{ intros Hm M' ys m Hy. eapply wp_leave; [exact Hy|]. apply HQ; [done|by right]. }
      intros M1 xs m Hx H1. destruct (writable can (line (next ls))); [|apply HQ; [done|by left]].
      assert (Hlen : length xs.*1 = length (tokens [] txt)) by (rewrite fmap_length, <- (fmap_length snd xs), Hx; apply fmap_length). rewrite Hlen.
      eapply (wp_save_all xs (tokens [] txt) [] [] xs); [exact H1|done|exact Hx|done| |].
      + intros M' tab n' H'. rewrite <- fmap_app. eapply (wp_destroy_all nm wmakes thr (tab ++ xs) M' [] n'); [by rewrite app_nil_r|]. intros M2 H2. by eapply IH.
      + intros Hm M' tab out n' H'. rewrite <- fmap_app. eapply wp_leave; [exact H'|]. apply HQ; [done|by right].
    - unfold load_file. destruct (opened fs (line ls)) as [inp|]; [|apply HQ; [done|by left]].
      destruct (dec ci inp) as [[m inp1]|]; [|apply HQ; [intros _; by eapply have_empty|by left]].
      assert (Hdef : ∀ k f, (∀ M' ys n', length ys = m → have M' ys n' → wp (k ys.*1 n') M' Q) → (may_throw → ∀ M' ys n', have M' ys n' → wp (f ys.*1) M' Q) →
        wp (resize nm grows m n k f) M Q).
      { intros k f Hk Hf. unfold resize. destruct (grows n) eqn:Eg; [by apply (wp_defaults m [])|by apply (wp_defaults m [])|].
        apply (Hf (or_intror (ex_intro _ n Eg)) M [] n Hh). }
      apply Hdef; clear Hdef.
      2:{ intros Hm M' ys n' H'. eapply wp_leave; [exact H'|]. apply HQ; [done|by right]. }
      intros M1 xs n1 Hx H1. eapply (wp_load_all xs [] [] [] []); [simpl; rewrite app_nil_r; exact H1|done|done| |]; rewrite Hx.
      + intros ws M2 ys tab n2 Epl Hy1 Hy2 H2. rewrite Epl in HQ. simpl in Hy1, Hy2. destruct (writable can (line (next ls))); [|apply HQ; [done|by left]]. rewrite <- Hy1.
        eapply (wp_write ys ws); [exact H2|intros z Hz; apply elem_of_app; by left|exact Hy2|]. rewrite <- fmap_app.
        eapply (wp_destroy_all nm wmakes thr (ys ++ tab) M2 [] n2); [by rewrite app_nil_r|]. intros M3 H3. by eapply IH.
      + intros Hm M2 ys tab n2 Hy H2. simpl in Hy. rewrite <- Hy, <- fmap_app. eapply wp_leave; [exact H2|]. apply HQ; [done|].
        destruct Hm as [Hm|Hm]; [by right|left; by rewrite Hm].
  Qed.
  Lemma wp_main ls fs : wp (main ls fs 0) ∅ (λ o M, (o.1 ≠ Exited → M = ∅) ∧ (o = plain_main ls fs ∨ may_throw ∧ o.1 = Threw)).
  Proof using Hnm. eapply wp_main_all; [apply le_n|apply have_nothing|done]. Qed.
End Plain.

(** ** The tokens *)
Section Tokens.
  Implicit Types (t txt cur : word) (ts : list word) (c : ascii).
  (** spaces and punctuation *)
  Definition separators : word := list_ascii_of_string (String "009" (String "010" (String "013" " !""#$%&'()*+,-./:;<=>?@[\]^_`{|}~"))).
  Definition separator t : Prop := ∃ c, t = [c] ∧ c ∈ separators.
  Definition between t : Prop := t ≠ [] ∧ Forall (λ c, c ∉ separators) t.
  Definition tokenized ts : Prop :=
    Forall (λ t, separator t ∨ between t) ts ∧ ∀ i t u, ts !! i = Some t → ts !! S i = Some u → separator t ∨ separator u.
  Lemma punct_spec c : punct c = true ↔ c ∈ separators.
  Proof. apply bool_decide_eq_true. Qed.
  Lemma between_not t : between t → separator t → False.
  Proof. intros [_ Hf] (c&->&Hc). rewrite Forall_singleton in Hf; by apply Hf. Qed.
  Lemma tokenized_tail t ts : tokenized (t :: ts) → tokenized ts.
  Proof. intros [[_ Hf]%Forall_cons H]. split; [done|]. intros i. apply (H (S i)). Qed.
  Lemma tokens_word t : Forall (λ c, c ∉ separators) t → ∀ cur txt, tokens cur (t ++ txt) = tokens (cur ++ t) txt.
  Proof.
    induction 1 as [|c t Hc _ IH]; intros cur txt; [by rewrite app_nil_r|]. simpl. destruct (punct c) eqn:E; [by apply punct_spec in E|].
    by rewrite IH, <- app_assoc.
  Qed.
  Lemma some_token_ne t : t ≠ [] → some_token t = [t].
  Proof. by destruct t. Qed.
  Lemma tokens_of ts : ∀ cur, tokenized ts → (cur = [] ∨ ∀ t, head ts = Some t → separator t) → tokens cur (concat ts) = some_token cur ++ ts.
  Proof.
    induction ts as [|t ts IH]; intros cur Ht Hc; [by rewrite app_nil_r|]. pose proof (tokenized_tail _ _ Ht) as Ht'. destruct Ht as [[Hor _]%Forall_cons Hadj].
    destruct Hor as [(c&->&Hs)|Hb].
    - simpl. rewrite (proj2 (punct_spec c) Hs), (IH [] Ht') by (by left). done.
    - destruct Hc as [->|Hc]; [|destruct (between_not t Hb (Hc t eq_refl))]. simpl. rewrite tokens_word by apply Hb. simpl.
      rewrite IH; [by rewrite some_token_ne by apply Hb|done|]. right. intros u Hu. destruct ts as [|u' ts]; [done|]. injection Hu as ->.
      destruct (Hadj 0 t u eq_refl eq_refl) as [H|H]; [|done]. destruct (between_not t Hb H).
  Qed.
  Lemma tokenized_cons t ts : (separator t ∨ between t) → tokenized ts → (between t → ∀ u, head ts = Some u → separator u) → tokenized (t :: ts).
  Proof.
    intros Ht [Hf Ha] Hh. split; [by constructor|]. intros [|i] u v Hu Hv; [|by apply (Ha i)]. injection Hu as <-. destruct Ht as [Ht|Ht]; [by left|].
    right. apply (Hh Ht). by destruct ts.
  Qed.
  Lemma tokens_good txt : ∀ cur, Forall (λ c, c ∉ separators) cur → tokenized (tokens cur txt) ∧ concat (tokens cur txt) = cur ++ txt.
  Proof.
    assert (Hone : ∀ cur, Forall (λ c, c ∉ separators) cur → ∀ ts, tokenized ts → (∀ u, head ts = Some u → separator u) → tokenized (some_token cur ++ ts) ∧ concat (some_token cur ++ ts) = cur ++ concat ts).
    { intros cur Hc ts Ht Hh. destruct cur as [|c cur]; [done|]. split; [|done]. apply (tokenized_cons (c :: cur)); [by right|done|done]. }
    induction txt as [|c txt IH]; intros cur Hc; simpl.
    - destruct (Hone cur Hc []) as [H1 H2]; [split; [constructor|done]|done|]. by rewrite !app_nil_r in *.
    - destruct (punct c) eqn:E.
      + apply punct_spec in E. destruct (IH []) as [H1 H2]; [constructor|]. assert (Hsep : separator [c]) by (by exists c).
        destruct (Hone cur Hc ([c] :: tokens [] txt)) as [H3 H4]; [apply tokenized_cons; [by left|done|intros Hb; destruct (between_not _ Hb Hsep)]|by intros u [= <-]|].
        split; [done|]. rewrite H4. simpl. by rewrite H2.
      + destruct (IH (cur ++ [c])) as [H1 H2]; [apply Forall_app_2; [done|]; apply Forall_singleton; intros Hs%punct_spec; by rewrite Hs in E|]. split; [done|]. by rewrite H2, <- app_assoc.
  Qed.
  (** the tokens of a text are the only way to cut it like this *)
  Theorem C78_tokens txt ts : tokens [] txt = ts ↔ concat ts = txt ∧ tokenized ts.
  Proof.
    split.
    - intros <-. destruct (tokens_good txt []) as [H1 H2]; [constructor|]. done.
    - intros [<- Ht]. by rewrite tokens_of by (done || by left).
  Qed.
End Tokens.

(** ** The archives *)
Section Archives.
  Context (ci : codec nat ascii) (ck : codec word ascii) (can : word → bool).
  Notation plain_save := (plain_save ci ck).
  Notation plain_load := (plain_load ci ck).
  Notation plain_main := (plain_main ci ck can).
  Implicit Types (w r out : word) (ws tv : list word) (fs : gmap word word).
  Lemma plain_save_out ws : ∀ tv out, plain_save ws tv out = out ++ plain_save ws tv [].
  Proof.
    induction ws as [|w ws IH]; intros tv out; simpl; [by rewrite app_nil_r|].
    destruct (list_find (w =.) tv) as [[i ?]|]; rewrite IH; symmetry; rewrite IH, ?app_assoc; done.
  Qed.
  (** an element of the vector as it is written: a number, and a string if there is one *)
  Definition item (x : nat * option word) : word := enc ci x.1 ++ match x.2 with Some w => enc ck w | None => [] end.
  Definition archive (xs : list (nat * option word)) : word := enc ci (length xs) ++ concat (item <$> xs).
  Definition strings (xs : list (nat * option word)) : list word := omap snd xs.
  Lemma save_items ws : ∀ tv, NoDup tv → ∃ xs, plain_save ws tv [] = concat (item <$> xs) ∧ length xs = length ws ∧ NoDup (tv ++ strings xs) ∧
    (∀ w, w ∈ strings xs → w ∈ ws) ∧
    ∀ j w, ws !! j = Some w → ∃ i o, xs !! j = Some (i, o) ∧ (tv ++ strings xs) !! i = Some w ∧
      ((o = Some w ∧ w ∉ tv ∧ ∀ j', j' < j → ws !! j' ≠ Some w) ∨ (o = None ∧ (w ∈ tv ∨ ∃ j', j' < j ∧ ws !! j' = Some w))).
  Proof.
    induction ws as [|w ws IH]; intros tv Hd.
    { exists []. split; [done|]. split; [done|]. split; [by rewrite app_nil_r|]. split; [by intros w ?%elem_of_nil|done]. }
    simpl. destruct (list_find (w =.) tv) as [[i v]|] eqn:E.
    - apply list_find_Some in E as (Hi&<-&_). destruct (IH tv Hd) as (xs&H1&H2&H3&H4&H5). exists ((i, None) :: xs).
      split; [rewrite plain_save_out, H1; unfold item at 2; simpl; by rewrite app_nil_r|]. split; [simpl; by rewrite H2|]. split; [done|].
      split; [intros u Hu; right; by apply H4|]. intros [|j] u Hu.
      + injection Hu as <-. exists i, None. split; [done|]. split; [by apply lookup_app_l_Some|]. right. split; [done|]. left. by eapply elem_of_list_lookup_2.
      + destruct (H5 j u Hu) as (i'&o&G1&G2&[(->&G3&G4)|(->&G3)]); exists i'; eexists; (split; [exact G1|split; [exact G2|]]).
        * left. split; [done|]. split; [done|]. intros [|j'] Hj; [|apply (G4 j'); lia]. intros [= ->]. destruct G3. by eapply elem_of_list_lookup_2.
        * right. split; [done|]. destruct G3 as [G3|(j'&Hj&G3)]; [by left|]. right. exists (S j'). split; [lia|done].
    - apply list_find_None in E. assert (Hw : w ∉ tv) by (intros Hin; rewrite Forall_forall in E; by apply (E w Hin)).
      destruct (IH (tv ++ [w])) as (xs&H1&H2&H3&H4&H5).
      { apply NoDup_app. split; [done|]. split; [intros u Hu ->%elem_of_list_singleton; done|apply NoDup_singleton]. }
      rewrite <- app_assoc in H3. exists ((length tv, Some w) :: xs).
      split; [rewrite plain_save_out, H1; unfold item at 2; simpl; done|]. split; [simpl; by rewrite H2|]. split; [done|].
      split; [intros u [->|Hu]%elem_of_cons; [by left|right; by apply H4]|]. intros [|j] u Hu.
      + injection Hu as <-. exists (length tv), (Some w). split; [done|]. split; [by apply list_lookup_middle|]. left. split; [done|]. split; [done|]. intros j'. lia.
      + destruct (H5 j u Hu) as (i'&o&G1&G2&G). rewrite <- app_assoc in G2. destruct G as [(->&G3&G4)|(->&G3)]; exists i'; eexists; (split; [exact G1|split; [exact G2|]]).
        * left. split; [done|]. split; [intros Hin; apply G3, elem_of_app; by left|]. intros [|j'] Hj; [|apply (G4 j'); lia]. intros [= ->].
          apply G3, elem_of_app. right. by left.
        * right. split; [done|]. destruct G3 as [[G3|G3]%elem_of_app|(j'&Hj&G3)]; [by left| |right; exists (S j'); split; [lia|done]].
          apply elem_of_list_singleton in G3 as ->. right. exists 0. split; [lia|done].
  Qed.
  (** what is saved: the strings are the tokens, each once, and each element is a
      number, of the string it stands for, followed by the string when it is there
      for the first time *)
  Theorem C78_archive a b txt fs ls l : choice l = 1%Z → a ≠ [] → b ≠ [] → fs !! a = Some txt → can b = true →
    ∃ xs, plain_main (l :: a :: b :: ls) fs = plain_main ls (<[b:=archive xs]> fs) ∧ length xs = length (tokens [] txt) ∧
      NoDup (strings xs) ∧ (∀ w, w ∈ strings xs ↔ w ∈ tokens [] txt) ∧
      ∀ j w, tokens [] txt !! j = Some w → ∃ i o, xs !! j = Some (i, o) ∧ strings xs !! i = Some w ∧
        (o = Some w ∧ (∀ j', j' < j → tokens [] txt !! j' ≠ Some w) ∨ o = None ∧ ∃ j', j' < j ∧ tokens [] txt !! j' = Some w).
  Proof.
    intros Hl Ha Hb Hf Hc. destruct (save_items (tokens [] txt) [] (NoDup_nil_2)) as (xs&H1&H2&H3&H4&H5). exists xs.
    assert (l ≠ []) by (intros ->; by vm_compute in Hl). split; [|split; [done|]].
    { destruct l as [|c l]; [done|]. cbn [SerText.plain_main]. rewrite Hl. cbn [Z.eqb Pos.eqb line next]. unfold opened, writable. destruct a as [|ca a]; [done|]. destruct b as [|cb b]; [done|].
      rewrite Hf, Hc, plain_save_out, H1. unfold archive. by rewrite H2. }
    split; [done|]. split.
    - intros w. split; [apply H4|]. intros [j Hj]%elem_of_list_lookup. destruct (H5 j w Hj) as (i&o&_&Hi&_). by eapply elem_of_list_lookup_2.
    - intros j w Hj. destruct (H5 j w Hj) as (i&o&G1&G2&G). exists i, o. split; [done|]. split; [done|].
      destruct G as [(->&_&G)|(->&[G|G])]; [by left|by apply elem_of_nil in G|by right].
  Qed.

  (** what is written can be read *)
  Definition reads {X} (c : codec X ascii) : Prop := ∀ x r, dec c (enc c x ++ r) = Some (x, r).
  Context (Hci : reads ci) (Hck : reads ck).
  Lemma load_saved ws : ∀ tv r, plain_load (length ws) tv (plain_save ws tv [] ++ r) = Some ws.
  Proof using Hci Hck.
    induction ws as [|w ws IH]; intros tv r; [done|]. simpl. destruct (list_find (w =.) tv) as [[i v]|] eqn:E.
    - apply list_find_Some in E as (Hi&<-&_). rewrite plain_save_out, <- app_assoc, Hci, Hi, IH. done.
    - rewrite plain_save_out, <- !app_assoc, Hci, (lookup_ge_None_2 tv (length tv)), decide_True, Hck by done. by rewrite IH.
  Qed.
  (** saved, and loaded again: the same text *)
  Theorem C78_round a b c l l' txt fs ls : choice l = 1%Z → choice l' = 2%Z → a ≠ [] → b ≠ [] → c ≠ [] → fs !! a = Some txt → can b = true → can c = true →
    ∃ arch, plain_main (l :: a :: b :: l' :: b :: c :: ls) fs = plain_main ls (<[c:=txt]> (<[b:=arch]> fs)).
  Proof using Hci Hck.
    intros Hl Hl' Ha Hb Hc Hf Hcb Hcc. exists (plain_save (tokens [] txt) [] (enc ci (length (tokens [] txt)))).
    assert (l ≠ []) by (intros ->; by vm_compute in Hl). assert (l' ≠ []) by (intros ->; by vm_compute in Hl').
    destruct l as [|c1 l]; [done|]. destruct l' as [|c2 l']; [done|]. cbn [SerText.plain_main]. rewrite Hl. cbn [Z.eqb Pos.eqb line next].
    assert (Ho : ∀ fs x, x ≠ [] → opened fs x = fs !! x) by (by intros ? []). assert (Hw : ∀ x, x ≠ [] → writable can x = can x) by (by intros []).
    rewrite (Ho fs a), Hf, (Hw b), Hcb by done. cbn [SerText.plain_main]. rewrite Hl'. cbn [Z.eqb Pos.eqb line next].
    rewrite (Ho _ b), lookup_insert, plain_save_out, Hci by done. rewrite <- (app_nil_r (plain_save _ _ [])), load_saved.
    rewrite (Hw c), Hcc by done. rewrite (proj1 (proj1 (C78_tokens txt _) eq_refl)), app_nil_r. done.
  Qed.
End Archives.

(** ** With flyweights *)
Section Machine.
  Context (FS : factory wkey) (HF : factory_spec weqk FS) (cfg : config) (t0 t : tid) (Ht : lck cfg = false → t = t0).
  Context (ci : codec nat ascii) (ck : codec word ascii) (can : word → bool).
  Context (nm : nat → var) (Hnm : ∀ i j, nm i = nm j → i = j) (grows : nat → growth).
  Notation state := (state (R:=wkey) (K:=wkey) (A:=word) FS).
  Notation own := (named nm).
  Notation reachable := (reachable wP FS cfg t0).
  Notation prun := (prun wP FS cfg fst t).
  Notation main := (main ci ck can nm grows).
  Notation plain_main := (plain_main ci ck can).
  Implicit Types s : state.
  Definition unused s : Prop := ∀ i, vars s !! nm i = None.
  Lemma unused_agrees s : unused s ↔ agrees wP FS fst own s ∅.
  Proof.
    split.
    - intros E. split; [intros x [i ->]; rewrite lookup_empty; apply E|intros x [? Hx]; by rewrite lookup_empty in Hx].
    - intros [E _] i. specialize (E (nm i) (ex_intro _ i eq_refl)). by rewrite lookup_empty in E.
  Qed.
  (** whatever the files are and whatever other threads do, it ends as with strings
      or with an exception, and without objects unless by std::exit *)
  Theorem C78_main s lines fs ls : reachable s → stack s t = [] → unused s → Forall (foreign own t) ls → Forall (on_time cfg t0) ls →
    ∃ s' w p, prun (s, false, main lines fs 0) ls = Some (s', w, p) ∧ reachable s' ∧
      ∀ o, p = Ret o → w = false ∧ stack s' t = [] ∧ (o.1 ≠ Exited → unused s') ∧ (o = plain_main lines fs ∨ o.1 = Threw).
  Proof using HF Hnm Ht.
    intros Hre Hst Hun Hf Hon. pose proof (wp_main ci ck can nm Hnm grows true lines fs) as Hw.
    destruct (C64_transparent wP FS cfg weqk (λ _, True) weqk_equivalence wP_ok HF t0 fst wP_keys own wmakes wmakes_make t Ht s (main lines fs 0) ∅ ls)
      as (s'&w&p&M&Hp&Hre'&Hr&Hw'); [done|done|by apply unused_agrees|by eapply (wp_safe _ _ _ _ _ wmakes_fun)|done|done|].
    exists s', w, p. split; [done|]. split; [done|]. intros o ->. destruct w; [by destruct Hw' as (?&?&?)|]. destruct Hw' as [Hst' Hag].
    pose proof (wp_steps own wmakes true wmakes_fun _ _ _ _ _ Hw Hr) as [HM Hr']. split; [done|]. split; [done|].
    split; [intros Ho; apply unused_agrees; by rewrite <- (HM Ho)|]. destruct Hr' as [?|[_ ?]]; [by left|by right].
  Qed.
  Theorem C78_completes s lines fs : (∀ n, grows n ≠ Fails) → reachable s → stack s t = [] → unused s →
    ∃ ls s', Forall (foreign own t) ls ∧ Forall (on_time cfg t0) ls ∧
      prun (s, false, main lines fs 0) ls = Some (s', false, Ret (plain_main lines fs)) ∧
      reachable s' ∧ quiescent s' ∧ ((plain_main lines fs).1 ≠ Exited → unused s').
  Proof using HF Hnm Ht.
    intros Hg Hre Hst Hun.
    destruct (C64_completes wP FS cfg weqk (λ _, True) weqk_equivalence wP_ok HF t0 fst wP_keys own wmakes wmakes_make t Ht (main lines fs 0) s ∅)
      as (ls&s'&o&M&H1&H2&H3&Hr&Hre'&Hq&Hag); [done|done|by apply unused_agrees|by eapply (wp_safe _ _ _ _ _ wmakes_fun), wp_main|].
    pose proof (wp_steps own wmakes false wmakes_fun _ _ _ _ _ (wp_main ci ck can nm Hnm grows false lines fs) Hr) as [HM Hr'].
    destruct Hr' as [->|[[?|[n Hn]] _]]; [|done|by destruct (Hg n)].
    exists ls, s'. split; [by eapply quiet_foreign|]. split; [done|]. split; [done|]. split; [done|]. split; [done|]. intros Ho. apply unused_agrees. by rewrite <- (HM Ho).
  Qed.
  (** the text comes back, unless there is an exception *)
  Theorem C78_text s a b c l l' txt fs ls : reads ci → reads ck →
    choice l = 1%Z → choice l' = 2%Z → a ≠ [] → b ≠ [] → c ≠ [] → (fs : gmap word word) !! a = Some txt → can b = true → can c = true →
    reachable s → stack s t = [] → unused s → Forall (foreign own t) ls → Forall (on_time cfg t0) ls →
    ∃ s' w p, prun (s, false, main [l; a; b; l'; b; c] fs 0) ls = Some (s', w, p) ∧
      ∀ o, p = Ret o → unused s' ∧ (o.1 = Threw ∨ o.1 = Done ∧ (o.2 : gmap word word) !! c = Some txt).
  Proof using HF Hnm Ht.
    intros Hci Hck Hl Hl' Ha Hb Hc Hfa Hcb Hcc Hre Hst Hun Hf Hon.
    destruct (C78_main s [l; a; b; l'; b; c] fs ls Hre Hst Hun Hf Hon) as (s'&w&p&Hp&_&Hr). exists s', w, p. split; [done|].
    intros o Ho. destruct (Hr o Ho) as (_&_&Hu&Hor). destruct (C78_round ci ck can Hci Hck a b c l l' txt fs []) as [arch E]; try done. rewrite E in Hor. cbn in Hor.
    destruct Hor as [->|Hth]; [|split; [apply Hu; by rewrite Hth|by left]]. split; [by apply Hu|]. right. split; [done|]. apply lookup_insert.
  Qed.
End Machine.

(** ** Examples: numbers are written in unary, strings with their length *)
Import Strings.String.
Definition bar : ascii := "|"%char.
Definition nat_codec : codec nat ascii :=
  Codec nat ascii (λ n, List.repeat "1"%char n ++ [bar])
    (λ w, (fix go (w : word) (n : nat) {struct w} := match w with [] => None | c :: w => if decide (c = "1"%char) then go w (S n) else if decide (c = bar) then Some (n, w) else None end) w 0).
Definition word_codec : codec word ascii :=
  Codec word ascii (λ x, enc nat_codec (List.length x) ++ x)
    (λ w, match dec nat_codec w with Some (n, w) => if decide (n <= List.length w) then Some (take n w, drop n w) else None | None => None end).
Lemma nat_codec_reads : reads nat_codec.
Proof.
  intros n r. simpl. rewrite <- app_assoc. simpl. replace n with (n + 0) at 2 by lia. generalize 0. induction n as [|n IH]; intros m; [done|].
  simpl. rewrite IH. do 2 f_equal. lia.
Qed.
Lemma word_codec_reads : reads word_codec.
Proof.
  intros x r. change (dec word_codec (enc word_codec x ++ r)) with (match dec nat_codec ((enc nat_codec (List.length x) ++ x) ++ r) with Some (n, w) => if decide (n <= List.length w) then Some (take n w, drop n w) else None | None => None end).
  rewrite <- app_assoc, nat_codec_reads, decide_True by (rewrite app_length; lia). by rewrite take_app, drop_app.
Qed.
Definition all_files (w : word) : bool := negb (bool_decide (w = text "ro")).
Definition some_files : files := {[ text "in" := text "to be, or not to be"; text "bad" := text "1|11|" ]}.
Notation runs := (plain_main nat_codec word_codec all_files).
Definition commands : list word := [text "1"; text "in"; text "ar"; text " 2x"; text "ar"; text "out"].
Example C78_shown :
  tokens [] (text "to be, or not to be") = text <$> ["to"; " "; "be"; ","; " "; "or"; " "; "not"; " "; "to"; " "; "be"]%string ∧
  runs commands some_files = (Done, <[text "out":=text "to be, or not to be"]> (<[text "ar":=text "111111111111||11|to1|1| 11|11|be111|1|,1|1111|11|or1|11111|111|not1||1|11|"]> some_files)) ∧
  runs [text "2"; text "bad"; text "out"] some_files = (Threw, some_files) ∧
  runs [text "7"; text "2"; text "none"; text "out"] some_files = (Exited, some_files) ∧
  runs [text "7"; text "1"; text "in"; text "ro"; text "2"] some_files = (Exited, some_files) ∧ runs [text "x"; []; text "2"; []; []] some_files = (Done, some_files).
Proof. vm_compute. split_and!; reflexivity. Qed.
Notation bFS := PropBasic.bFS.
Notation even := PropBasic.even.
Definition short_files : files := {[ text "in" := text "b-b b" ]}.
Notation program := (main nat_codec word_codec all_files even PropBasic.growth3).
Definition meanwhile (n : nat) : list (clab (A:=word)) := [Env (LStart 2 (ONew 1 (text "b") []))] ++ PropBasic.rounds n 0 false.
Lemma meanwhile_foreign n : Forall (foreign (named even) 1) (meanwhile n).
Proof.
  unfold meanwhile. apply Forall_app_2; [|apply Forall_concat, Forall_fmap, Forall_forall; intros j _; repeat constructor; simpl; done].
  constructor; [|constructor]. intros _ x [j ->]; simpl; apply bool_decide_eq_false; unfold PropBasic.even; lia.
Qed.
Definition shown (x : option (outcome * nat * list var)) : option (status * option word * nat * list var) :=
  match x with Some (o, n, xs) => Some (o.1, (o.2 : files) !! text "out", n, xs) | None => None end.
Example C78_at_work :
  reads nat_codec ∧ reads word_codec ∧ choice (text "1") = 1%Z ∧ choice (text " 2x") = 2%Z ∧
  unused bFS even (init bFS) ∧ Forall (foreign (named even) 1) (meanwhile 900) ∧ Forall (on_time rc 1) (meanwhile 900) ∧
  shown (PropBasic.at_end (prun wP bFS rc fst 1 (init bFS, false, program commands short_files 0) (meanwhile 900))) = Some (Done, Some (text "b-b b"), 1, [1]).
Proof.
  split; [apply nat_codec_reads|]. split; [apply word_codec_reads|]. split; [done|]. split; [done|]. split; [done|]. split; [apply meanwhile_foreign|].
  split; [apply Forall_forall; intros [l|] _; done|]. vm_compute. reflexivity.
Qed.
(** std::exit when the archive cannot be written: the flyweights of the vector are
    not destroyed; an exception *)
Example C78_exit :
  shown (PropBasic.at_end (prun wP bFS rc fst 1 (init bFS, false, program [text "1"; text "in"; text "ro"] short_files 0) (PropBasic.rounds 900 0 false)))
    = Some (Exited, None, 3, [32; 24; 28; 26; 30]).
Proof. vm_compute. reflexivity. Qed.
Example C78_exception :
  shown (PropBasic.at_end (prun wP bFS rc fst 1 (init bFS, false, program commands short_files 0) (PropBasic.rounds 60 0 false ++ PropBasic.rounds 650 60 true))) = Some (Threw, None, 0, []).
Proof. vm_compute. reflexivity. Qed.

Print Assumptions C78_tokens.
Print Assumptions C78_archive.
Print Assumptions C78_round.
Print Assumptions C78_main.
Print Assumptions C78_completes.
Print Assumptions C78_text.
