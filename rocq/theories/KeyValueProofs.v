(** Lemmas for [PropKeyValue.v]: programs that lose no value, with vectors. *)
From Coq Require Import Ascii.
From Verif Require Import SerializeProofs CoreRace Policies Instances PropInner Client PropClient PropKept.
From Verif Require Export KeyValue.

(** ** Every step of a program satisfies [J] *)
Section Kwp.
  Context {A L O : Type} `{EqDecision L} (own : var → Prop) (makes : A → nat → L → Prop) (thr : bool).
  Context (Hfun : ∀ a n l l', makes a n l → makes a n l' → l = l').
  Notation env := (gmap var (tree L)).
  Notation prog := (prog (A:=A) (L:=L) (O:=O)).
  Notation plain := (plain (O:=O) own makes thr).
  Context (J : prog → env → env → Prop).
  Implicit Types (M : env) (Q : O → env → Prop) (p : prog).
  Definition kwp p M Q : Prop := ∀ p' M', rtc plain (p, M) (p', M') →
    match p' with Ret o => Q o M' | _ => ∃ c, plain (p', M') c end ∧ ∀ p2 M2, plain (p', M') (p2, M2) → J p' M' M2.
  Lemma kwp_ret o M Q : Q o M → kwp (Ret o) M Q.
  Proof.
    intros HQ p' M' Hr. inversion Hr as [|? [p1 M1] ? H1]; subst; [|inversion H1]. split; [done|]. intros p2 M2 H1. inversion H1.
  Qed.
  Lemma kwp_step p M Q : (∃ c, plain (p, M) c) → (∀ p2 M2, plain (p, M) (p2, M2) → J p M M2 ∧ kwp p2 M2 Q) → kwp p M Q.
  Proof.
    intros He Hs p' M' Hr. inversion Hr as [|? [p1 M1] ? H1 H2]; subst.
    - split; [|intros p2 M2 H1; by apply (Hs p2 M2 H1)]. destruct p'; [|done..]. destruct He as [c Hc]. inversion Hc.
    - destruct (Hs p1 M1 H1) as [_ Hk]. by apply Hk.
  Qed.
  Lemma kwp_new x a ys k M Q ts l : own x → M !! x = None → Forall2 (λ y T, M !! y = Some T) ys ts → makes a (length ts) l →
    J (Call (ONew x a ys) k) M (<[x:=Tree l ts]> M) → kwp (k true) (<[x:=Tree l ts]> M) Q →
    (thr = true → J (Call (ONew x a ys) k) M M ∧ kwp (k false) M Q) → kwp (Call (ONew x a ys) k) M Q.
  Proof using Hfun.
    intros Hx HM Hts Hmk HJ Hk Hf. apply kwp_step; [eexists; by eapply Pl_new|]. intros p2 M2 Hp. inversion Hp as [x0 a0 ys0 ts0 l0 k0 M0 ? ? Hts0 Hm0| | | | | | | | |]; simplify_eq; [|by apply Hf].
    assert (ts0 = ts) as -> by (by eapply vals_fun). rewrite (Hfun _ _ _ _ Hm0 Hmk). done.
  Qed.
  Lemma kwp_copy x y T k M Q : own x → M !! x = None → M !! y = Some T → J (Call (OCopy x y) k) M (<[x:=T]> M) → kwp (k true) (<[x:=T]> M) Q → kwp (Call (OCopy x y) k) M Q.
  Proof. intros Hx HM HT HJ Hk. apply kwp_step; [eexists; by eapply Pl_copy|]. intros p2 M2 Hp. by inversion Hp; simplify_eq. Qed.
  Lemma kwp_destroy x T k M Q : M !! x = Some T → J (Call (ODestroy x) k) M (delete x M) → kwp (k true) (delete x M) Q → kwp (Call (ODestroy x) k) M Q.
  Proof. intros HT HJ Hk. apply kwp_step; [eexists; by eapply Pl_destroy|]. intros p2 M2 Hp. by inversion Hp; simplify_eq. Qed.
  Lemma kwp_look x path T l us k M Q : M !! x = Some T → subtree T path = Some (Tree l us) → J (Look x path k) M M → kwp (k l (length us)) M Q → kwp (Look x path k) M Q.
  Proof. intros HT HU HJ Hk. apply kwp_step; [eexists; by eapply Pl_look|]. intros p2 M2 Hp. by inversion Hp; simplify_eq. Qed.
End Kwp.

(** ** Vectors *)
Section Keeping.
  Context {A L O : Type} `{EqDecision L} (nm : nat → var) (Hnm : ∀ i j, nm i = nm j → i = j) (grows : nat → growth) (makes : A → nat → L → Prop) (thr : bool).
  Context (Hfun : ∀ a n l l', makes a n l → makes a n l' → l = l').
  Notation env := (gmap var (tree L)).
  Notation prog := (prog (A:=A) (L:=L) (O:=O)).
  Notation have := (have nm).
  (** the outcomes at which the objects are gone, and what the program has to
      satisfy when it constructs from [a] *)
  Context (gone : O → Prop) (need : A → env → Prop).
  Implicit Types (M : env) (Q : O → env → Prop) (p : prog).
  Definition ending p M : Prop := ∃ xs o, p = destroy_all xs (Ret o) ∧ gone o.
  Definition needs p M : Prop := match p with Call (ONew x a ys) k => need a M | _ => True end.
  Definition orderly p M M2 : Prop := (ending p M ∨ ∀ T, has M T → has M2 T) ∧ needs p M.
  Notation kwp := (kwp (named nm) makes thr orderly).
  Lemma ending_final : final (named nm) makes ending.
  Proof.
    intros p1 M1 p2 M2 (xs&o&->&Ho) Hp. destruct xs as [|x xs]; [inversion Hp|]. simpl in Hp. inversion Hp; simplify_eq. by exists xs, o.
  Qed.
  Lemma ending_idle : idle ending.
  Proof. intros x a ys k M (xs&o&E&_). by destruct xs. Qed.
  Lemma has_insert M x T U : M !! x = None → has M U → has (<[x:=T]> M) U.
  Proof. intros Hx [y Hy]. exists y. rewrite lookup_insert_ne; [done|congruence]. Qed.
  Lemma has_have M l n T : have M l n → has M T ↔ T ∈ l.*2.
  Proof.
    intros (_&H&_). split.
    - intros [x Hx%H]. apply elem_of_list_fmap. by exists (x, T).
    - intros ([x U]&->&Hx)%elem_of_list_fmap. exists x. by apply H.
  Qed.

  Lemma kwp_destroy_all xs : ∀ M l n p Q, have M (xs ++ l) n → (∀ T, T ∈ xs.*2 → T ∈ l.*2) → (∀ M', have M' l n → kwp p M' Q) → kwp (destroy_all xs.*1 p) M Q.
  Proof.
    induction xs as [|[x T] xs IH]; intros M l n p Q Hh Hx Hp; [by apply Hp|]. pose proof Hh as Hh0.
    apply have_drop in Hh as [HT Hh]. cbn. eapply kwp_destroy; [exact HT| |].
    - split; [|done]. right. intros U HU. apply (has_have _ _ _ _ Hh0) in HU. apply (has_have _ _ _ _ Hh).
      change (U ∈ T :: (xs ++ l).*2) in HU. change (U ∈ (xs ++ l).*2). apply elem_of_cons in HU as [->|HU]; [|done]. rewrite fmap_app. apply elem_of_app. right. apply Hx. by left.
    - eapply IH; [exact Hh|intros U HU; apply Hx; by right|done].
  Qed.
  Lemma kwp_ending xs : ∀ M l n o Q, have M (xs ++ l) n → gone o → (∀ M', have M' l n → Q o M') → kwp (destroy_all xs.*1 (Ret o)) M Q.
  Proof.
    induction xs as [|[x T] xs IH]; intros M l n o Q Hh Ho HQ; [by apply kwp_ret, HQ|].
    apply have_drop in Hh as [HT Hh]. cbn. eapply kwp_destroy; [exact HT| |by eapply IH].
    split; [|done]. left. by exists (x :: xs.*1), o.
  Qed.
  Lemma kwp_copy_all xs : ∀ M l n k Q, have M l n → (∀ z, z ∈ xs → z ∈ l) →
    (∀ M' ys m, ys.*2 = xs.*2 → have M' (ys ++ l) m → kwp (k ys.*1 m) M' Q) → kwp (copy_all nm xs.*1 n k) M Q.
  Proof using Hnm.
    induction xs as [|[x T] xs IH]; intros M l n k Q Hh Hx Hk; [by apply (Hk M [] n)|].
    cbn. assert (HN : M !! nm n = None) by (by eapply have_none).
    eapply kwp_copy; [by exists n|done|destruct Hh as (_&H&_); apply H, Hx; by left|split; [right; intros U; by apply has_insert|done]|].
    eapply (IH _ ((nm n, T) :: l) (S n)); [by eapply have_new|intros z Hz; right; apply Hx; by right|].
    intros M' ys m Hys Hh'. apply (Hk M' ((nm n, T) :: ys) m); [change (T :: ys.*2 = T :: xs.*2); by rewrite Hys|]. eapply have_perm; [|exact Hh']. by rewrite <- Permutation_middle.
  Qed.
  Lemma kwp_push_back xs r T : ∀ M l n k f Q, have M (xs ++ (r, T) :: l) n →
    (∀ M' ys m, ys.*2 = xs.*2 ++ [T] → have M' (ys ++ (r, T) :: l) m → kwp (k ys.*1 m) M' Q) → (may_throw grows thr → kwp f M Q) →
    kwp (push_back nm grows xs.*1 r n k f) M Q.
  Proof using Hnm.
    intros M l n k f Q Hh Hk Hf. unfold push_back. assert (Hr : M !! r = Some T) by (destruct Hh as (_&H&_); apply H, elem_of_app; right; by left).
    assert (HN : M !! nm n = None) by (by eapply have_none).
    destruct (grows n) eqn:E; [| |apply Hf; right; eauto];
      (eapply kwp_copy; [by exists n|done|exact Hr|split; [right; intros U; by apply has_insert|done]|]).
    - pose proof (Hk (<[nm n:=T]> M) (xs ++ [(nm n, T)]) (S n)) as Hk'. rewrite !fmap_app in Hk'. apply Hk'; [done|].
      eapply have_perm; [|by eapply have_new]. rewrite <- app_assoc. apply Permutation_middle.
    - eapply (kwp_copy_all xs _ ((nm n, T) :: xs ++ (r, T) :: l)); [by eapply have_new|intros z Hz; right; apply elem_of_app; by left|].
      intros M' ys m Hys Hh'. eapply (kwp_destroy_all xs _ (ys ++ [(nm n, T)] ++ (r, T) :: l)).
      { eapply have_perm; [|exact Hh']. simpl. rewrite (app_assoc xs ys), (Permutation_app_comm xs ys), <- app_assoc. f_equiv.
        apply Permutation_middle. }
      { intros U HU. rewrite fmap_app. apply elem_of_app. left. by rewrite Hys. }
      intros M2 H2. pose proof (Hk M2 (ys ++ [(nm n, T)]) m) as Hk'. rewrite !fmap_app in Hk'. apply Hk'; [by rewrite Hys|]. by rewrite <- app_assoc.
  Qed.
End Keeping.

(** ** key_value.cpp *)
Definition kvlab (r : kvrep) : texture := match r with inl w | inr w => w end.
Definition kvof (a : kvarg) : texture := match a with FromKey w | FromValue w => w end.
Definition kvmakes (a : kvarg) (n : nat) (w : texture) : Prop := n = 0 ∧ w = kvof a.
Lemma kveq_equivalence : equivalence kveq.
Proof.
  split; unfold kveq.
  - intros x. by apply bool_decide_eq_true.
  - intros x y ->%bool_decide_eq_true. by apply bool_decide_eq_true.
  - intros x y z ->%bool_decide_eq_true ->%bool_decide_eq_true. by apply bool_decide_eq_true.
Qed.
Lemma kvP_ok : policy_ok kveq (λ _, True) kvP.
Proof.
  apply variant_policy_ok; [intros k; by apply bool_decide_eq_true| |intros k; by apply bool_decide_eq_true|done].
  intros a [|? ?] k E; simplify_eq/=; done.
Qed.
Lemma kvP_keys r r' : kveq (p_key kvP r) (p_key kvP r') = bool_decide (kvlab r = kvlab r') && bool_decide (p_kids kvP r = p_kids kvP r').
Proof. destruct r, r'; simpl; by rewrite andb_true_r. Qed.
Lemma kvmakes_fun a n l l' : kvmakes a n l → kvmakes a n l' → l = l'.
Proof. intros [_ ->] [_ ->]. done. Qed.
Lemma kvmakes_make a ks l : kvmakes a (length ks) l → ∃ r, p_make kvP a ks = Some r ∧ p_kids kvP r = ks ∧ kvlab r = l.
Proof. intros [->%nil_length_inv ->]. destruct a as [w|w]; simpl; eauto. Qed.
Lemma kvP_late a ks r : p_make kvP a ks = Some r → p_val kvP r = None.
Proof. destruct a as [w|w]; simpl; [destruct (kvmk w ks); intros; by simplify_eq|]. case_bool_decide; intros; by simplify_eq. Qed.

Section Main.
  Context {O : Type} (nm : nat → var) (Hnm : ∀ i j, nm i = nm j → i = j) (grows : nat → growth) (thr : bool).
  Context (gone : O → Prop).
  Notation prog := (prog (A:=kvarg) (L:=texture) (O:=O)).
  Notation env := (gmap var (tree texture)).
  Notation have := (have nm).
  Definition leaf (w : texture) : tree texture := Tree w [].
  (** a texture that is copied is there already *)
  Definition there (a : kvarg) (M : env) : Prop := match a with FromKey _ => True | FromValue w => has M (leaf w) end.
  Notation kwp := (kwp (named nm) kvmakes thr (orderly (O:=O) gone there)).
  Implicit Types (M : env) (Q : O → env → Prop) (p : prog).

  Lemma kwp_append a (l : list (var * tree texture)) M n k o Q : have M l n → there a M → gone o →
    (∀ M' l' m, l'.*2 = l.*2 ++ [leaf (kvof a)] → have M' l' m → kwp (k l'.*1 m) M' Q) → (may_throw grows thr → Q o ∅) →
    kwp (append nm grows a l.*1 n k (Ret o)) M Q.
  Proof using Hnm.
    intros Hh Ha Ho Hk Hf. unfold append. assert (HN : M !! nm n = None) by (by eapply have_none).
    assert (Hnil : ∀ M', have M' [] (S n) → M' = ∅) by (intros M'; apply have_empty). assert (Hnil' : ∀ M', have M' [] n → M' = ∅) by (intros M'; apply have_empty).
    eapply (kwp_new _ _ _ kvmakes_fun _ _ _ [] _ _ _ [] (kvof a)); [by exists n|done|constructor|done|split; [right; intros U; by apply has_insert|done]| |].
    - eapply kwp_push_back; [done|eapply have_perm; [|by eapply (have_new nm Hnm M l n n)]; apply Permutation_cons_append| |].
      + intros M' ys m Hys Hh'. assert (Hh2 : have M' ((nm n, leaf (kvof a)) :: ys) m) by (eapply have_perm; [|exact Hh']; symmetry; apply Permutation_cons_append).
        pose proof (have_drop _ _ _ _ _ _ Hh2) as [HT Hd]. eapply kwp_destroy; [exact HT| |].
        * split; [|done]. right. intros U HU. apply (has_have nm _ _ _ _ Hh2) in HU. apply (has_have nm _ _ _ _ Hd).
          cbn [fmap list_fmap] in HU. apply elem_of_cons in HU as [->|HU]; [|done]. rewrite Hys. apply elem_of_app. right. by left.
        * by apply Hk.
      + intros Hmay. apply (kwp_ending nm _ _ gone there ((nm n, leaf (kvof a)) :: l) _ [] (S n)); [|done|].
        * rewrite app_nil_r. by eapply have_new.
        * intros M' ->%Hnil. by apply Hf.
    - intros Hthr. split; [split; [by right|done]|]. eapply (kwp_ending nm _ _ gone there l _ [] n); [by rewrite app_nil_r|done|].
      intros M' ->%Hnil'. apply Hf. by left.
  Qed.
  Lemma kwp_load rs : ∀ l M n k o Q, have M l n → gone o →
    (∀ M' l' m, l'.*2 = l.*2 ++ (leaf <$> rs) → have M' l' m → kwp (k l'.*1 m) M' Q) → (may_throw grows thr → Q o ∅) →
    kwp (load nm grows rs l.*1 n k (Ret o)) M Q.
  Proof using Hnm.
    induction rs as [|w rs IH]; intros l M n k o Q Hh Ho Hk Hf; simpl; [apply Hk; [by rewrite app_nil_r|done]|].
    apply kwp_append; [done|done|done| |done]. intros M' l' m Hl Hh'. apply IH; [done|done| |done]. intros M2 l2 m2 Hl2 H2. apply Hk; [|done].
    by rewrite Hl2, Hl, <- app_assoc.
  Qed.
  Lemma kwp_again js : ∀ ws l M n k o undef Q, have M l n → l.*2 = leaf <$> ws → gone o →
    (∀ M' l' m ws', copies ws js = Some ws' → l'.*2 = leaf <$> ws' → have M' l' m → kwp (k l'.*1 m) M' Q) → (may_throw grows thr → Q o ∅) →
    (ws = [] → js ≠ [] → kwp undef ∅ Q) → kwp (again nm grows js l.*1 n k (Ret o) undef) M Q.
  Proof using Hnm.
    induction js as [|j js IH]; intros ws l M n k o undef Q Hh Hl Ho Hk Hf Hu; simpl; [by eapply Hk|].
    assert (El : length l.*1 = length ws) by (rewrite fmap_length, <- (fmap_length leaf ws), <- Hl; by rewrite fmap_length). rewrite El.
    destruct (l.*1 !! (j mod length ws)) as [x|] eqn:Ex.
    - apply list_lookup_fmap_Some in Ex as ([x' T]&Ex&->). simpl.
      assert (Ew : l.*2 !! (j mod length ws) = Some T) by (by rewrite list_lookup_fmap, Ex). rewrite Hl in Ew. apply list_lookup_fmap_Some in Ew as (w&Ew&->).
      assert (Hx : M !! x' = Some (leaf w)) by (destruct Hh as (_&H&_); apply H; by eapply elem_of_list_lookup_2).
      eapply kwp_look; [exact Hx|done|split; [by right|done]|]. apply kwp_append; [done|by exists x'|done| |done].
      intros M' l' m Hl' Hh'. simpl in Hl'. apply (IH (ws ++ [w]) l' M' m); [done|by rewrite Hl', Hl, fmap_app|done| |done|].
      + intros M2 l2 m2 ws' Hc. apply (Hk M2 l2 m2 ws'). simpl. by rewrite Ew.
      + intros E. by destruct ws.
    - apply lookup_ge_None in Ex. rewrite El in Ex. assert (ws = []) as ->.
      { destruct ws as [|w ws]; [done|]. pose proof (Nat.mod_upper_bound j (length (w :: ws)) ltac:(done)). lia. }
      destruct l; [|done]. rewrite (have_empty nm M n Hh). by apply Hu.
  Qed.
  Lemma kwp_create rs js k o undef Q : gone o →
    (∀ M l m ws, copies (pick <$> rs) js = Some ws → l.*2 = leaf <$> ws → have M l m → kwp (k l.*1 m) M Q) → (may_throw grows thr → Q o ∅) →
    (rs = [] → js ≠ [] → kwp undef ∅ Q) → kwp (create nm grows rs js k (Ret o) undef) ∅ Q.
  Proof using Hnm.
    intros Ho Hk Hf Hu. unfold create. apply (kwp_load _ []); [apply have_nothing|done| |done].
    intros M l m Hl Hh. eapply kwp_again; [done|exact Hl|done| |done|]; [intros M' l' m' ws'; apply Hk|]. intros E. apply Hu. by destruct rs.
  Qed.
End Main.
Lemma copies_length js : ∀ l l', copies l js = Some l' → length l' = length l + length js.
Proof.
  induction js as [|j js IH]; intros l l'; simpl; [intros [= ->]; lia|]. destruct (l !! _); [|done]. intros E%IH. rewrite E, app_length. simpl. lia.
Qed.
Lemma copies_same js : ∀ l l' w, copies l js = Some l' → w ∈ l' ↔ w ∈ l.
Proof.
  induction js as [|j js IH]; intros l l' w; simpl; [by intros [= ->]|]. destruct (l !! _) as [v|] eqn:E; [|done]. intros Hc. rewrite (IH _ _ w Hc), elem_of_app.
  split; [|by left]. intros [?|E2]; [done|]. apply elem_of_list_singleton in E2 as ->. by eapply elem_of_list_lookup_2.
Qed.
