(** C70: what a program keeps.  As long as a program has an object with some
    value, the entry of that value stays where it is and no other is constructed
    for it, whatever the program does with its objects and whatever other threads
    do; a program that drops no value, alone in the process, has each value
    constructed at most once.  Examples: [PropKeyValue.v]. *)
From Verif Require Import SerializeProofs CoreRace Instances PropInner Client PropClient.

Section Spec.
  Context {A L O : Type} (own : var → Prop) (makes : A → nat → L → Prop).
  Notation env := (gmap var (tree L)).
  Notation prog := (prog (A:=A) (L:=L) (O:=O)).
  Notation plain := (plain (O:=O) own makes true).
  Definition has (M : env) (T : tree L) : Prop := ∃ x, M !! x = Some T.
  (** With plain values the program does not lose the value [T], until [over]. *)
  Definition keeps (over : prog → env → Prop) (T : tree L) (p : prog) (M : env) : Prop :=
    ∀ p1 M1 p2 M2, rtc plain (p, M) (p1, M1) → plain (p1, M1) (p2, M2) → over p1 M1 ∨ (has M1 T → has M2 T).
  (** It does not lose any. *)
  Definition hoards (over : prog → env → Prop) (p : prog) (M : env) : Prop :=
    ∀ p1 M1 p2 M2, rtc plain (p, M) (p1, M1) → plain (p1, M1) (p2, M2) → over p1 M1 ∨ ∀ T, has M1 T → has M2 T.
  (** what is over is over *)
  Definition final (over : prog → env → Prop) : Prop := ∀ p1 M1 p2 M2, over p1 M1 → plain (p1, M1) (p2, M2) → over p2 M2.
  (** from then on it constructs no object from a value *)
  Definition idle (over : prog → env → Prop) : Prop := ∀ x a ys k M, ¬ over (Call (ONew x a ys) k) M.
  Lemma hoards_plain over p M p' M' : hoards over p M → rtc plain (p, M) (p', M') → hoards over p' M'.
  Proof. intros H Hr p1 M1 p2 M2 H1. apply H. by etrans. Qed.
  Lemma keeps_plain over T p M p' M' : keeps over T p M → rtc plain (p, M) (p', M') → keeps over T p' M'.
  Proof. intros H Hr p1 M1 p2 M2 H1. apply H. by etrans. Qed.
  Lemma hoards_keeps over T p M : hoards over p M → keeps over T p M.
  Proof. intros H p1 M1 p2 M2 H1 H2. destruct (H _ _ _ _ H1 H2); eauto. Qed.
  Lemma over_plain over p M p' M' : final over → over p M → rtc plain (p, M) (p', M') → over p' M'.
  Proof.
    intros H HT Hr. remember (p, M) as c eqn:Ec. remember (p', M') as c' eqn:Ec'. revert p M Ec HT.
    induction Hr as [c|c [p1 M1] c' H1 _ IH]; intros p M -> HT; [by simplify_eq|]. by apply (IH Ec' p1 M1 eq_refl), (H p M).
  Qed.
  Lemma keeps_has over T p M p' M' : final over → keeps over T p M → has M T → rtc plain (p, M) (p', M') → over p' M' ∨ has M' T.
  Proof.
    intros Hov Hk HT Hr. remember (p, M) as c eqn:Ec. remember (p', M') as c' eqn:Ec'. revert p M Ec Hk HT.
    induction Hr as [c|c [p1 M1] c' H1 Hr IH]; intros p M -> Hk HT; [simplify_eq; by right|].
    destruct (Hk p M p1 M1 (rtc_refl _ _) H1) as [Ho|Hh].
    - left. subst c'. eapply over_plain; [done| |exact Hr]. by eapply Hov.
    - apply (IH Ec' p1 M1 eq_refl); [by eapply keeps_plain, rtc_once|auto].
  Qed.
End Spec.

(** the number of constructions of values with a key equivalent to [k] *)
Fixpoint builds {K R} (eqv : K → K → bool) (k : K) (lg : list (event (K:=K) (R:=R))) : nat :=
  match lg with
  | [] => 0
  | EvBuild _ k' :: lg => (if eqv k' k then 1 else 0) + builds eqv k lg
  | _ :: lg => builds eqv k lg
  end.
Lemma builds_app {K R} (eqv : K → K → bool) k (l l' : list (event (K:=K) (R:=R))) : builds eqv k (l ++ l') = builds eqv k l + builds eqv k l'.
Proof. induction l as [|[] l IH]; simpl; try done. rewrite IH. lia. Qed.

Section Kept.
  Context {K A R V L O : Type}.
  Context (P : policy K A R V) (FS : factory K) (cfg : config).
  Context (eqv : K → K → bool) (good : R → Prop).
  Context (Heq : equivalence eqv) (HP : policy_ok eqv good P) (HF : factory_spec eqv FS).
  Context (t0 : tid).
  Context `{EqDecision L} (lab : R → L).
  Context (Hkey : ∀ r r', eqv (p_key P r) (p_key P r') = bool_decide (lab r = lab r') && bool_decide (p_kids P r = p_kids P r')).
  Context (own : var → Prop) (makes : A → nat → L → Prop).
  Context (Hmakes : ∀ a ks l, makes a (length ks) l → ∃ r, p_make P a ks = Some r ∧ p_kids P r = ks ∧ lab r = l).
  Context (t : tid) (Ht : lck cfg = false → t = t0).

  Notation state := (state (R:=R) (K:=K) (A:=A) FS).
  Notation op := (op (A:=A)).
  Notation Inv := (Inv P FS cfg eqv good HF t0).
  Notation allowed := (allowed cfg t0).
  Notation cnt := (cnt P FS).
  Notation step := (step P FS cfg).
  Notation run := (run P FS cfg).
  Notation reachable := (reachable P FS cfg t0).
  Notation shows := (shows P FS lab).
  Notation denotes := (denotes P FS lab).
  Notation agrees := (agrees P FS lab own).
  Notation prog := (prog (A:=A) (L:=L) (O:=O)).
  Notation plain := (plain (O:=O) own makes true).
  Notation safe := (safe (O:=O) own makes).
  Notation keeps := (keeps (O:=O) own makes).
  Notation hoards := (hoards (O:=O) own makes).
  Notation final := (final (O:=O) own makes).
  Notation pstep := (pstep P FS cfg lab t).
  Notation prun := (prun P FS cfg lab t).
  Notation sim := (sim P FS cfg eqv t0 lab own makes t).
  Notation inv := (reach_inv P FS cfg eqv good Heq HP HF t0).
  Implicit Types (s : state) (M : gmap var (tree L)) (T : tree L) (over : prog → gmap var (tree L) → Prop).

  Lemma agrees_has s M T : reachable s → agrees s M → has M T → ∃ x h n, own x ∧ vars s !! x = Some (Some h) ∧ entry s h = Some n ∧ shows s h T.
  Proof using Heq HP HF.
    intros Hre [H1 H2] [x Hx]. assert (Ho : own x) by eauto. specialize (H1 x Ho). rewrite Hx in H1. destruct H1 as ([h r]&Hv&HT).
    apply (value_of_var P FS cfg eqv good HF t0) in Hv as (Hv&n&Hn&_); [|by apply inv]. by exists x, h, n.
  Qed.
  (** a call in progress has had its effect on the objects, unless it constructs *)
  Lemma sim_keeps s w p M T over : sim (s, w, p) M → keeps over T p M → has M T → over p M ∨
    ∃ x h n, own x ∧ vars s !! x = Some (Some h) ∧ entry s h = Some n ∧ shows s h T.
  Proof using Heq HP HF.
    intros [Hre Hw] Hk HT. destruct w.
    - destruct Hw as (o&k&->&Hw). destruct o as [x a ys|x y|x y|x y|x|x|x y path]; simpl in Hw;
        try (destruct Hw as (M'&Hp&Hag); destruct (Hk _ _ (k true) M' (rtc_refl _ _)) as [?|Hh]; [by eapply plain_more|by left|right];
             by apply (agrees_has s M' T Hre Hag), Hh).
      right. destruct Hw as (ts&l&r&ks&Hx&HM&_&_&[Hb1 Hb2]&_). destruct HT as [y Hy].
      assert (Hyx : y ≠ x) by congruence. assert (Ho : own y) by eauto. specialize (Hb1 y Ho Hyx). rewrite Hy in Hb1. destruct Hb1 as ([h r']&Hv&HT).
      apply (value_of_var P FS cfg eqv good HF t0) in Hv as (Hv&n&Hn&_); [|by apply inv]. by exists y, h, n.
    - right. destruct Hw as [_ Hag]. apply (agrees_has s M T Hre Hag HT).
  Qed.

  (** one step of the machine while something refers to the entry *)
  Lemma spared s l s' h n : reachable s → allowed (label_tid l) → step s l = Next s' → 0 < cnt s h → entry s h = Some n →
    ∃ new, log s' = new ++ log s ∧ (∀ h' k, EvBuild h' k ∈ new → eqv (p_key P (n_rep n)) k = false) ∧ ∀ k, EvErase h k ∉ new.
  Proof using Heq HP HF.
    intros Hre Hal Hs Hc Hn. pose proof (inv s Hre) as HI.
    destruct (i_hnd _ _ _ _ _ (i_C _ _ _ _ _ _ _ _ HI) h Hc) as (n1&Hn1&Hd). assert (n1 = n) as -> by congruence.
    destruct (eff_step P FS cfg eqv good Heq HP HF t0 _ _ _ HI Hal Hs)
      as [oe _ _ Hv Hlog|u c y p r0 rest a -> Hst Ha _ He Hvars Hlog
         |u c y h' p ks k' rest m -> Hst Hm Hv Hbv Hbk Hk He Hvars Hlog
         |u c i rest h' m -> Hst Hi Hm Hc0 He Hvars Hlog].
    - exists (option_list oe). split; [done|]. split; [intros h' k Hin|intros k Hin]; exfalso;
        destruct Hv; simpl in Hin; apply elem_of_list_singleton in Hin || apply elem_of_nil in Hin; done.
    - exists []. split; [done|]. by split; [intros h' k ?%elem_of_nil|intros k ?%elem_of_nil].
    - exists [EvBuild h' k']. split; [done|]. split; [|by intros k ?%elem_of_list_singleton].
      intros h1 k E%elem_of_list_singleton. injection E as -> ->. destruct (eqv (p_key P (n_rep n)) k') eqn:E; [|done]. exfalso.
      assert (h = h') as ->.
      { eapply (i_uniq _ _ _ _ _ _ (i_H _ _ _ _ _ _ _ _ HI)); [done|done|]. eapply (eqv_trans _ Heq); [done|]. by apply (eqv_sym _ Heq). }
      assert (m = n) as -> by congruence. destruct Hd. congruence.
    - exists [EvErase h' (p_key P (n_rep m))]. split; [done|]. split; [by intros h1 k ?%elem_of_list_singleton|].
      intros k E%elem_of_list_singleton. injection E as -> ->. rewrite Hc0 in Hc. by apply Nat.lt_irrefl in Hc.
  Qed.
  (** a step of the whole is a step of the machine, or none *)
  Lemma pstep_step (c : state * bool * prog) l c' : pstep c l = Some c' → on_time cfg t0 l → c'.1.1 = c.1.1 ∨ ∃ l', allowed (label_tid l') ∧ step c.1.1 l' = Next c'.1.1.
  Proof using Ht HF.
    destruct c as [[s w] p], l as [l|]; cbn [Client.pstep fst].
    - intros H Hon. destruct (starts t l); [simplify_eq; by left|]. destruct (step s l) as [s'| |] eqn:E; simplify_eq; [right; eauto|by left].
    - intros H _. destruct p as [o|o k|x path k|x path y path' k]; cbn [pgo] in H.
      + simplify_eq. by left.
      + destruct w; [destruct (stack s t); simplify_eq; by left|]. destruct (step s (LStart t o)) as [s'| |] eqn:E; simplify_eq.
        right. exists (LStart t o). done.
      + destruct (look P FS lab s x path) as [[??]|]; simplify_eq. by left.
      + destruct (same P FS s x path y path'); simplify_eq. by left.
  Qed.

  Lemma kept_run T over ls : final over → ∀ c M h n, sim c M → safe c.2 M → keeps over T c.2 M → has M T →
    Forall (foreign own t) ls → Forall (on_time cfg t0) ls → entry c.1.1 h = Some n → shows c.1.1 h T →
    ∃ c' M', prun c ls = Some c' ∧ sim c' M' ∧ rtc plain (c.2, M) (c'.2, M') ∧ (over c'.2 M' ∨
      has M' T ∧ (∃ x, own x ∧ vars c'.1.1 !! x = Some (Some h)) ∧ shows c'.1.1 h T ∧
      (∃ n', entry c'.1.1 h = Some n' ∧ n_rep n' = n_rep n) ∧
      ∃ new, log c'.1.1 = new ++ log c.1.1 ∧ (∀ h' k, EvBuild h' k ∈ new → eqv (p_key P (n_rep n)) k = false) ∧ ∀ k, EvErase h k ∉ new).
  Proof using Heq HP HF Hkey Hmakes Ht.
    intros Hov. induction ls as [|l ls IH]; intros c M h n Hs Hsafe Hk HM Hf Hon Hn HT.
    - exists c, M. split; [done|]. split; [done|]. split; [done|]. destruct c as [[s w] p].
      destruct (sim_keeps s w p M T over Hs Hk HM) as [?|(x&h'&n'&Hx&Hv&Hn'&HT')]; [by left|right].
      pose proof Hs as [Hre _]. assert (h' = h) as -> by (by eapply (shows_same P FS cfg eqv good Heq HF t0 lab Hkey s h' h n' n T T (inv s Hre))).
      split; [done|]. split; [eauto|]. split; [done|]. split; [eauto|].
      exists []. split; [done|]. by split; [intros h' k ?%elem_of_nil|intros k ?%elem_of_nil].
    - pose proof (Forall_inv Hf) as Hl. pose proof (Forall_inv Hon) as Hl'.
      destruct (sim_step P FS cfg eqv good Heq HP HF t0 lab Hkey own makes Hmakes t Ht c M l Hs Hsafe Hl Hl') as (c1&M1&Hp&Hs1&Hr1).
      assert (Hend : over c1.2 M1 → ∃ c' M', prun c (l :: ls) = Some c' ∧ sim c' M' ∧ rtc plain (c.2, M) (c'.2, M') ∧ over c'.2 M').
      { intros Ho. apply Forall_cons in Hf as [_ Hf], Hon as [_ Hon].
        destruct (sim_run P FS cfg eqv good Heq HP HF t0 lab Hkey own makes Hmakes t Ht ls c1 M1) as (c2&M2&Hp2&Hs2&Hr2); [done|by eapply safe_plain|done|done|].
        exists c2, M2. cbn [Client.prun]. rewrite Hp. split; [done|]. split; [done|]. split; [by etrans|]. by eapply over_plain. }
      assert (Hend' : over c1.2 M1 ∨ has M1 T ∧ ∃ x h n, own x ∧ vars c.1.1 !! x = Some (Some h) ∧ entry c.1.1 h = Some n ∧ shows c.1.1 h T).
      { destruct (sim_keeps c.1.1 c.1.2 c.2 M T over) as [Ho|Hhold]; [by destruct c as [[??]?]|done|done|left; by eapply over_plain|].
        destruct (keeps_has own makes over T c.2 M c1.2 M1) as [?|?]; try done; [by left|by right]. }
      destruct Hend' as [Ho|[HM1 (x&h'&n'&Hx&Hv&Hn'&HT')]].
      { destruct (Hend Ho) as (c2&M2&?&?&?&?). exists c2, M2. split; [done|]. split; [done|]. split; [done|]. by left. }
      apply Forall_cons in Hf as [_ Hf], Hon as [_ Hon]. clear Hend.
      assert (Hnow : ∃ n1 new, entry c1.1.1 h = Some n1 ∧ n_rep n1 = n_rep n ∧ shows c1.1.1 h T ∧ log c1.1.1 = new ++ log c.1.1 ∧
        (∀ h' k, EvBuild h' k ∈ new → eqv (p_key P (n_rep n)) k = false) ∧ ∀ k, EvErase h k ∉ new).
      { destruct (pstep_step c l c1 Hp Hl') as [->|(l1&Hal&Hs')].
        - exists n, []. split_and!; try done; [by intros h1 k ?%elem_of_nil|by intros k ?%elem_of_nil].
        - destruct c as [[s w] p]. simpl in *. pose proof Hs as [Hre _]. pose proof (inv s Hre) as HI.
          assert (h' = h) as -> by (by eapply (shows_same P FS cfg eqv good Heq HF t0 lab Hkey s h' h n' n T T HI)).
          assert (Hc : 0 < cnt s h) by (by eapply var_cnt).
          destruct (kept_step P FS cfg eqv good Heq HP HF t0 s l1 _ h n HI Hal Hs' Hc Hn) as (n1&Hn1&Hr).
          destruct (spared s l1 _ h n Hre Hal Hs' Hc Hn) as (new&E1&E2&E3). exists n1, new. split_and!; try done.
          by eapply (shows_step P FS cfg eqv good Heq HP HF t0 lab s l1). }
      destruct Hnow as (n1&new&Hn1&Hr&HT1&E1&E2&E3).
      destruct (IH c1 M1 h n1 Hs1) as (c2&M2&Hp2&Hs2&Hr2&Hres);
        [by eapply safe_plain|by eapply keeps_plain|done|done|done|done|done|].
      exists c2, M2. cbn [Client.prun]. rewrite Hp. split; [done|]. split; [done|]. split; [by etrans|].
      destruct Hres as [?|(HM2&Hx2&HT2&(n2&Hn2&Hr2')&new2&F1&F2&F3)]; [by left|right].
      split; [done|]. split; [done|]. split; [done|]. split; [exists n2; split; congruence|].
      exists (new2 ++ new). split; [by rewrite F1, E1, app_assoc|]. rewrite Hr in F2. split.
      + intros h1 k [?|?]%elem_of_app; eauto.
      + intros k [?|?]%elem_of_app; [by eapply F3|by eapply E3].
  Qed.

  (** ** C70 *)

  (** A value that the program has and does not lose: until it is over, its entry
      stays, an object of the program refers to it, and no value is constructed
      with that key. *)
  Theorem C70_kept over s (p : prog) M T ls :
    final over → reachable s → stack s t = [] → agrees s M → safe p M → keeps over T p M → has M T →
    Forall (foreign own t) ls → Forall (on_time cfg t0) ls →
    ∃ h n s' w p' M', entry s h = Some n ∧ shows s h T ∧ prun (s, false, p) ls = Some (s', w, p') ∧ rtc plain (p, M) (p', M') ∧
      (over p' M' ∨ shows s' h T ∧
       (∃ n', entry s' h = Some n' ∧ n_rep n' = n_rep n) ∧ (∃ x, own x ∧ vars s' !! x = Some (Some h)) ∧
       ∃ new, log s' = new ++ log s ∧ (∀ h' k, EvBuild h' k ∈ new → eqv (p_key P (n_rep n)) k = false) ∧ ∀ k, EvErase h k ∉ new).
  Proof using Heq HP HF Hkey Hmakes Ht.
    intros Hov Hre Hst Hag Hsafe Hk HM Hf Hon. destruct (agrees_has s M T Hre Hag HM) as (x&h&n&_&_&Hn&HT).
    destruct (kept_run T over ls Hov (s, false, p) M h n) as ([[s' w] p']&M'&Hp&_&Hr&Hres); try done. exists h, n, s', w, p', M'.
    split; [done|]. split; [done|]. split; [done|]. split; [done|]. destruct Hres as [?|(_&Hx&HT'&Hn'&Hlog)]; [by left|by right].
  Qed.
  (** The same for a program that loses no value, from when it has the value
      on. *)
  Theorem C70_from over s (p : prog) M ls1 s1 p1 x v T ls2 :
    final over → reachable s → stack s t = [] → agrees s M → safe p M → hoards over p M →
    Forall (foreign own t) ls1 → Forall (on_time cfg t0) ls1 → prun (s, false, p) ls1 = Some (s1, false, p1) →
    own x → value_of s1 x = Some v → shows s1 v.1 T → Forall (foreign own t) ls2 → Forall (on_time cfg t0) ls2 →
    ∃ s2 w p2 M2, prun (s1, false, p1) ls2 = Some (s2, w, p2) ∧ rtc plain (p, M) (p2, M2) ∧ (over p2 M2 ∨
      shows s2 v.1 T ∧ (∃ n, entry s2 v.1 = Some n ∧ n_rep n = v.2) ∧ (∃ y, own y ∧ vars s2 !! y = Some (Some v.1)) ∧
      ∃ new, log s2 = new ++ log s1 ∧ (∀ h k, EvBuild h k ∈ new → eqv (p_key P v.2) k = false) ∧ ∀ k, EvErase v.1 k ∉ new).
  Proof using Heq HP HF Hkey Hmakes Ht.
    intros Hov Hre Hst Hag Hsafe Hh Hf1 Hon1 Hp1 Hx Hv HT Hf2 Hon2.
    destruct (sim_run P FS cfg eqv good Heq HP HF t0 lab Hkey own makes Hmakes t Ht ls1 (s, false, p) M) as (c1&M1&E&Hs1&Hr); [done|done|done|done|].
    rewrite Hp1 in E. injection E as <-. pose proof Hs1 as [Hre1 [Hst1 [Ha1 Ha2]]]. pose proof (inv s1 Hre1) as HI. destruct v as [h r]. simpl in *.
    pose proof Hv as Hv'. apply (value_of_var P FS cfg eqv good HF t0) in Hv' as (Hvx&n&Hn&Hnr&_); [|done].
    assert (Hhas : has M1 T).
    { exists x. specialize (Ha1 x Hx). destruct (M1 !! x) as [U|]; simpl in Ha1; [|congruence]. destruct Ha1 as (v'&Hv'&HU).
      rewrite Hv in Hv'. injection Hv' as <-. f_equal. by eapply (shows_same P FS cfg eqv good Heq HF t0 lab Hkey s1 h h n n). }
    destruct (kept_run T over ls2 Hov (s1, false, p1) M1 h n) as ([[s2 w] p2]&M2&Hp&_&Hr2&Hres); try done.
    { by eapply safe_plain. }
    { apply hoards_keeps. by eapply hoards_plain. }
    exists s2, w, p2, M2. simpl in *. split; [done|]. split; [by etrans|]. destruct Hres as [?|(_&Hy&HT'&(n'&Hn'&Hr')&Hlog)]; [by left|right].
    rewrite Hnr in Hlog, Hr'. split; [done|]. split; [eauto|]. done.
  Qed.

  (** ** Alone in the process *)

  Notation phase := (phase P FS eqv).
  Notation instr := (instr (K:=K) (A:=A) (R:=R)).
  Notation event := (event (K:=K) (R:=R)).
  Notation start := (start P FS cfg).
  Notation content := (content P FS eqv).
  (** instructions on the way to no construction *)
  Definition calm (i : instr) : Prop := match i with ILockFind _ _ _ | IFind _ _ _ | IVisit _ _ _ _ _ => False | _ => True end.
  Definition silent (new : list event) : Prop := ∀ h k, EvBuild h k ∉ new.
  Lemma silent_builds k (new : list event) : silent new → builds eqv k new = 0.
  Proof.
    intros H. induction new as [|e new IH]; [done|]. assert (silent new) by (intros h k' Hin; apply (H h k'); by right).
    destruct e; simpl; auto. exfalso. eapply H. by left.
  Qed.
  Lemma calm_start s o s' : start s t o = Next s' → stack s t = [] → (∀ x a ys, o ≠ ONew x a ys) → Forall calm (stack s' t).
  Proof.
    intros Hs Hst Ho. unfold stack in *. destruct o as [x a ys|x y|x y|x y|x|x|x y path]; [by destruct (Ho x a ys)|..]; simpl in Hs;
      unfold copy_handle in Hs; repeat case_match; simplify_eq; simpl; rewrite ?lookup_insert; simpl; rewrite ?Hst; repeat constructor.
  Qed.
  Lemma calm_step s c s' : step s (LRun t c) = Next s' → Forall calm (stack s t) → Forall calm (stack s' t).
  Proof.
    cbn [Core.step]. destruct (stack s t) as [|i rest] eqn:Hst; [done|]. intros He [Hi Hrest]%Forall_cons.
    assert (Hm : ∀ kk, Forall calm (map IRelease kk)).
    { intros kk. apply Forall_forall. by intros j (a&->&_)%elem_of_list_fmap. }
    assert (Hs : ∀ s1 new, stack (set_stack t new s1) t = new) by (intros; by rewrite stack_set, decide_True).
    assert (Hl : ∀ s1 new e, stack (add_log e (set_stack t new s1)) t = new) by (intros; unfold stack; simpl; by rewrite lookup_insert).
    destruct i; simpl in Hi; try done; simpl in He; unfold acquire, unlock, erase, finish in He; repeat case_match; simplify_eq;
      rewrite ?Hs, ?Hl; rewrite ?Forall_app, ?Forall_cons; split_and?; rewrite ?Forall_app, ?Forall_cons, ?Forall_nil; split_and?; try done; try apply Hm.
  Qed.
  Lemma quiet_log s l s' : reachable s → allowed (label_tid l) → step s l = Next s' →
    (∀ c, l = LRun t c → Forall calm (stack s t)) → label_tid l = t → ∃ new, log s' = new ++ log s ∧ silent new.
  Proof using Heq HP HF.
    intros Hre Hal Hs Hc Ht1. pose proof (inv s Hre) as HI.
    destruct (eff_step P FS cfg eqv good Heq HP HF t0 _ _ _ HI Hal Hs)
      as [oe _ _ Hv Hlog|u c y p r0 rest a -> Hst Ha _ He Hvars Hlog
         |u c y h' p ks k' rest m -> Hst Hm Hv Hbv Hbk Hk He Hvars Hlog
         |u c i rest h' m -> Hst Hi Hm Hc0 He Hvars Hlog].
    - exists (option_list oe). split; [done|]. intros h' k Hin; exfalso;
        destruct Hv; simpl in Hin; apply elem_of_list_singleton in Hin || apply elem_of_nil in Hin; done.
    - exists []. split; [done|]. by intros h' k ?%elem_of_nil.
    - exfalso. simpl in Ht1. subst u. specialize (Hc _ eq_refl). rewrite Hst in Hc. by apply Forall_cons in Hc as [[] _].
    - exists [EvErase h' (p_key P (n_rep m))]. split; [done|]. by intros h1 k ?%elem_of_list_singleton.
  Qed.

  (** the start of a construction *)
  Lemma phase_start s x a ys s1 : reachable s → step s (LStart t (ONew x a ys)) = Next s1 →
    ∃ ks, stack s t = [] ∧ vars s !! x = None ∧ (∀ b, b ∈ ks → ∃ y, vars s !! y = Some (Some b)) ∧
      phase s t x a ks s1 ∧ ∀ u, u ≠ t → stack s1 u = stack s u.
  Proof using Heq HP HF.
    intros Hre Hs1. pose proof (inv s Hre) as HI. cbn [Core.step] in Hs1. destruct (stack s t) eqn:Hst; [|done]. simpl in Hs1.
    destruct (vars s !! x) eqn:Hx; [done|]. destruct (mapM (live s) ys) as [ks|] eqn:Hm; [|done].
    apply mapM_Some in Hm.
    assert (Hks' : ∀ b, b ∈ ks → ∃ y, vars s !! y = Some (Some b)).
    { intros b Ha. apply elem_of_list_lookup in Ha as [j Hj].
      destruct (Forall2_lookup_r _ _ _ _ _ Hm Hj) as (y&_&Hy). exists y. by apply live_vars. }
    destruct (copy_handles_spec P FS cfg s ks) as (s1'&Hs1'&Hcp).
    { intros b [y Hy]%Hks'. destruct (var_entry P FS cfg eqv good HF t0 _ _ _ HI Hy) as (n&Hn&_). eauto. }
    rewrite Hs1' in Hs1. pose proof Hcp as [C1 C2 C3 C4 C5 C6 C7 C8].
    assert (Hsh0 : ∀ b, shape FS s1' b = shape FS s b).
    { apply shape_same. by eapply copied_shape. }
    exists ks. split; [done|]. split; [done|]. split; [done|].
    destruct (p_make P a ks) as [r|] eqn:Hr; simplify_eq.
    - split.
      + eapply (Pfind _ _ _ _ _ _ _ _ _ r); try done.
        * left. by rewrite stack_set, decide_True.
        * simpl. by rewrite C4.
      + intros t' Hne. rewrite stack_set, decide_False by done. unfold stack. simpl. by rewrite C6.
    - split.
      + eapply (Punw _ _ _ _ _ _ _ _ _ (map IRelease ks) []); try done.
        * by rewrite stack_set, decide_True.
        * by apply okU_release.
        * simpl. by rewrite C4.
        * by left.
      + intros t' Hne. rewrite stack_set, decide_False by done. unfold stack. simpl. by rewrite C6.
  Qed.

  (** an entry of a value that the program has, with the key *)
  Definition had s M (k : K) : Prop := ∃ T h n, has M T ∧ entry s h = Some n ∧ shows s h T ∧ eqv (p_key P (n_rep n)) k = true.
  Definition once s M : Prop := ∀ k, builds eqv k (log s) ≤ 1 ∧ (builds eqv k (log s) = 1 → had s M k).
  Definition making1 s (p : prog) M : Prop :=
    ∃ x a ys k0 s0 ks, p = Call (ONew x a ys) k0 ∧ own x ∧ reachable s0 ∧ stack s0 t = [] ∧ vars s0 !! x = None ∧
      (∀ b, b ∈ ks → ∃ y, vars s0 !! y = Some (Some b)) ∧ (∀ u, u ≠ t → stack s0 u = []) ∧
      phase s0 t x a ks s ∧ once s0 M ∧ ∀ k, had s0 M k → had s M k.
  Definition solo over s (w : bool) (p : prog) M : Prop :=
    (∀ u, u ≠ t → stack s u = []) ∧
    (Forall calm (stack s t) ∧ (once s M ∨ over p M ∧ ∀ k, builds eqv k (log s) ≤ 1) ∨ w = true ∧ making1 s p M).

  Lemma had_more s M M' k : (∀ T, has M T → has M' T) → had s M k → had s M' k.
  Proof. intros H (T&h&n&HT&Hrest). exists T, h, n. split; [by apply H|done]. Qed.
  Lemma sim_hoards s w p M over : sim (s, w, p) M → hoards over p M → over p M ∨
    ∀ T, has M T → ∃ x h n, own x ∧ vars s !! x = Some (Some h) ∧ entry s h = Some n ∧ shows s h T.
  Proof using Heq HP HF.
    intros [Hre Hw] Hk. destruct w.
    - destruct Hw as (o&k&->&Hw). destruct o as [x a ys|x y|x y|x y|x|x|x y path]; simpl in Hw;
        try (destruct Hw as (M'&Hp&Hag); destruct (Hk _ _ (k true) M' (rtc_refl _ _)) as [?|Hh]; [by eapply plain_more|by left|right];
             intros T HT; by apply (agrees_has s M' T Hre Hag), Hh).
      right. intros T [y Hy]. destruct Hw as (ts&l&r&ks&Hx&HM&_&_&[Hb1 Hb2]&_).
      assert (Hyx : y ≠ x) by congruence. assert (Ho : own y) by eauto. specialize (Hb1 y Ho Hyx). rewrite Hy in Hb1. destruct Hb1 as ([h r']&Hv&HT).
      apply (value_of_var P FS cfg eqv good HF t0) in Hv as (Hv&n&Hn&_); [|by apply inv]. by exists y, h, n.
    - right. intros T HT. destruct Hw as [_ Hag]. apply (agrees_has s M T Hre Hag HT).
  Qed.
  Lemma had_step s w (p : prog) M over l s' : sim (s, w, p) M → hoards over p M → allowed (label_tid l) → step s l = Next s' →
    over p M ∨ ∀ k, had s M k → had s' M k.
  Proof using Heq HP HF Hkey.
    intros Hs Hh Hal Hs'. destruct (sim_hoards s w p M over Hs Hh) as [?|Hall]; [by left|right].
    intros k (T&h&n&HT&Hn&Hsh&Hk). pose proof Hs as [Hre _]. pose proof (inv s Hre) as HI.
    destruct (Hall T HT) as (x&h'&n'&Hx&Hv&Hn'&HT').
    assert (h' = h) as -> by (by eapply (shows_same P FS cfg eqv good Heq HF t0 lab Hkey s h' h n' n T T HI)).
    assert (Hc : 0 < cnt s h) by (by eapply var_cnt).
    destruct (kept_step P FS cfg eqv good Heq HP HF t0 s l _ h n HI Hal Hs' Hc Hn) as (n1&Hn1&Hr).
    exists T, h, n1. split; [done|]. split; [done|]. split; [by eapply (shows_step P FS cfg eqv good Heq HP HF t0 lab s l)|]. by rewrite Hr.
  Qed.
  Lemma once_silent s s' M new : once s M → log s' = new ++ log s → silent new → (∀ k, had s M k → had s' M k) → once s' M.
  Proof.
    intros H E Hsil Hh k. destruct (H k) as [H1 H2]. rewrite E, builds_app, (silent_builds k new Hsil). simpl. split; [done|]. auto.
  Qed.
  (** the constructions logged by a call in progress *)
  Lemma phase_builds s0 x a ks s M k : phase s0 t x a ks s → once s0 M → builds eqv k (log s) ≤ 1 ∧
    (builds eqv k (log s) = 1 → had s0 M k ∨ ∃ r h n, eqv (p_key P r) k = true ∧ entry s h = Some n ∧
      p_make P a ks = Some r ∧ n_rep n = built P a r ∧ p_val P r = None ∧ (stack s t = [] → vars s !! x = Some (Some h))).
  Proof using Heq HF Ht.
    intros Hph Ho. destruct (Ho k) as [H1 H2].
    assert (Hsil : ∀ new, log s = new ++ log s0 → silent new → builds eqv k (log s) ≤ 1 ∧ (builds eqv k (log s) = 1 → had s0 M k)).
    { intros new E Hn. rewrite E, builds_app, (silent_builds k new Hn). simpl. auto. }
    assert (Hes : ∀ es : list event, es = [] ∨ (∃ h k0, es = [EvErase h k0]) → silent es).
    { intros es [->|(h&k0&->)] h' k'; [by intros ?%elem_of_nil|by intros ?%elem_of_list_singleton]. }
    assert (Hco : ∀ r h bs es, p_make P a ks = Some r → content s0 s a r h bs → silent es → log s = es ++ bs ++ log s0 →
      (stack s t = [] → vars s !! x = Some (Some h)) →
      builds eqv k (log s) ≤ 1 ∧ (builds eqv k (log s) = 1 → had s0 M k ∨ ∃ r h n, eqv (p_key P r) k = true ∧ entry s h = Some n ∧
        p_make P a ks = Some r ∧ n_rep n = built P a r ∧ p_val P r = None ∧ (stack s t = [] → vars s !! x = Some (Some h)))).
    { intros r h bs es Hr Hc Hes' E Hst. destruct Hc as [(n&_&_&_&_&->)|(Hno&Hfr&_&(n&Hn&Hnr)&->)].
      - destruct (Hsil es E Hes') as [? ?]. auto.
      - destruct (p_val P r) eqn:Hv; [destruct (Hsil es E Hes') as [? ?]; auto|].
        rewrite E, builds_app, (silent_builds k es Hes'). simpl. destruct (eqv (p_key P r) k) eqn:Ek; simpl; [|auto].
        destruct (decide (builds eqv k (log s0) = 1)) as [E1|E1].
        + exfalso. destruct (H2 E1) as (T&h'&n'&_&Hn'&_&Hk'). specialize (Hfr _ _ Hn').
          rewrite (eqv_trans _ Heq _ k _ Hk') in Hfr; [done|]. by apply (eqv_sym _ Heq).
        + split; [lia|]. intros _. right. by exists r, h, n. }
    destruct Hph as [r Hr Hst' Hv Hsh Hlg|r h n Hr Hst' Hn Hd Hk Hv Hsh Hlg
        |r h n Hr Hst' Hn Hm' Hsh Hn' Hnr Hv Hlg
        |r h bs kk Hr Hst' Hkk Hc Hv Hlg|r h bs l Hr Hst' Hl Hnf Hc Hv Hlg|r h bs Hr Hst' Hc Hv Hlg
        |l es Hst' Hl Hv Hsh He Hlg|es Hst' Hv Hsh He Hlg].
    1-3: destruct (Hsil [] Hlg) as [? ?]; [by intros ?? ?%elem_of_nil|auto].
    - apply (Hco r h bs []); try done; [by intros ?? ?%elem_of_nil|]. intros E. destruct Hst'; congruence.
    - apply (Hco r h bs []); try done; [by intros ?? ?%elem_of_nil|]. intros E. rewrite Hst' in E. by destruct l.
    - apply (Hco r h bs [EvNew x (p_key P r)]); try done; [by intros ?? ?%elem_of_list_singleton|]. intros _. rewrite Hv. apply lookup_insert.
    - destruct (Hsil es Hlg) as [? ?]; [by apply Hes|auto].
    - destruct (Hsil (EvThrow x :: es) Hlg) as [? ?]; [|auto]. intros h k0 [?|Hin]%elem_of_cons; [done|]. by eapply (Hes es He).
  Qed.
  Lemma solo_builds over s w p M k : solo over s w p M → builds eqv k (log s) ≤ 1.
  Proof using Heq HF Ht.
    intros [_ [[_ [H|[_ H]]]|(_&x&a&ys&k0&s0&ks&_&_&_&_&_&_&_&Hph&Ho&_)]]; [apply H|apply H|]. by apply (phase_builds s0 x a ks s M k Hph Ho).
  Qed.
  Lemma fine_silent over s s' (p : prog) M new : (once s M ∨ over p M ∧ ∀ k, builds eqv k (log s) ≤ 1) → log s' = new ++ log s → silent new →
    (over p M ∨ ∀ k, had s M k → had s' M k) → once s' M ∨ over p M ∧ ∀ k, builds eqv k (log s') ≤ 1.
  Proof.
    intros H E Hsil Hh. destruct H as [H|[Ho H]].
    - destruct Hh as [Ho|Hh]; [|left; by eapply once_silent]. right. split; [done|].
      intros k. rewrite E, builds_app, (silent_builds k new Hsil). apply H.
    - right. split; [done|]. intros k. rewrite E, builds_app, (silent_builds k new Hsil). apply H.
  Qed.

  Lemma solo_step over c M l : final over → idle over → sim c M → safe c.2 M → hoards over c.2 M → quiet l → on_time cfg t0 l →
    solo over c.1.1 c.1.2 c.2 M →
    ∃ c' M', pstep c l = Some c' ∧ sim c' M' ∧ rtc plain (c.2, M) (c'.2, M') ∧ solo over c'.1.1 c'.1.2 c'.2 M'.
  Proof using Heq HP HF Hkey Hmakes Ht.
    intros Hfin Hidle.
    destruct c as [[s w] p]. cbn [fst snd]. intros Hs Hsafe Hh Hq Hon HS. pose proof Hs as [Hre Hsw]. pose proof (inv s Hre) as HI.
    assert (Hstay : pstep (s, w, p) l = Some (s, w, p) → ∃ c' M', pstep (s, w, p) l = Some c' ∧ sim c' M' ∧ rtc plain (p, M) (c'.2, M') ∧ solo over c'.1.1 c'.1.2 c'.2 M').
    { intros E. by exists (s, w, p), M. }
    (* the program only looks *)
    assert (Hlook : ∀ p', w = false → plain (p, M) (p', M) → solo over s false p' M).
    { intros p' -> Hp. destruct HS as [Hoth [[Hcalm HS]|[? _]]]; [|done]. split; [done|]. left. split; [done|].
      destruct HS as [HS|[Ho HS]]; [by left|right]. split; [by eapply Hfin|done]. }
    destruct l as [l|].
    - cbn [Client.pstep] in *. destruct (starts t l) eqn:Est; [by apply Hstay|].
      pose proof (step_ok P FS cfg eqv good Heq HP HF t0 s l HI Hon) as Hok. unfold res_ok in Hok.
      destruct (step s l) as [s'| |] eqn:E; [|by apply Hstay|done]. destruct l as [u o|u c]; [done|].
      destruct HS as [Hoth HS]. assert (u = t) as ->.
      { destruct (decide (u = t)) as [|Hne]; [done|]. simpl in E. by rewrite (Hoth u Hne) in E. }
      assert (Hs' : sim (s', w, p) M) by (eapply (sim_env P FS cfg eqv good Heq HP HF t0 lab own makes t); done).
      exists (s', w, p), M. split; [done|]. split; [done|]. split; [done|]. cbn [fst snd].
      pose proof (had_step s w p M over (LRun t c) s' Hs Hh Hon E) as Hhad.
      assert (Hoth' : ∀ u, u ≠ t → stack s' u = []).
      { intros u Hne. rewrite <- (Hoth u Hne). exact (step_other P FS cfg s (LRun t c) s' u E Hne). }
      split; [done|]. destruct HS as [[Hcalm Ho]|(->&x&a&ys&k0&s0&ks&->&Hx&Hre0&Hst0&Hx0&Hks&Hoth0&Hph&Ho&Hh0)].
      + left. split; [by eapply calm_step|].
        destruct (quiet_log s (LRun t c) s' Hre Hon E) as (new&El&Hsil); [done|done|]. by eapply fine_silent.
      + destruct Hhad as [Hno|Hhad]; [by apply Hidle in Hno|].
        right. split; [done|]. exists x, a, ys, k0, s0, ks. do 7 (split; [done|]). split; [|split; [done|auto]].
        apply (phase_step P FS cfg eqv good HP HF t0 s0 t x a ks (inv s0 Hre0) Ht Hst0 Hx0 Hks s c s' HI); [|done|done].
        intros u Hne. by rewrite Hoth, Hoth0.
    - destruct p as [o|o k|x path k|x path y path' k]; [by apply Hstay| | |].
      + cbn [Client.pstep pgo] in *. destruct w.
        * destruct (stack s t) as [|i rest] eqn:Est; [|by apply Hstay].
          destruct (sim_end P FS cfg eqv good Heq HP HF t0 lab Hkey own makes t s o k M Hs Est) as (M'&Hp&Hs').
          assert (Hpl : plain (Call o k, M) (k (made_it FS s o), M')) by (by eapply plain_more).
          exists (s, false, k (made_it FS s o)), M'. split; [done|]. split; [done|]. split; [by apply rtc_once|]. cbn [fst snd].
          destruct HS as [Hoth HS]. split; [done|]. left. rewrite Est. split; [constructor|].
          destruct (Hh _ _ _ _ (rtc_refl _ _) Hpl) as [Hov|HMM].
          -- right. split; [by eapply Hfin|]. intros k1. eapply (solo_builds over s true (Call o k) M k1). by split.
          -- destruct HS as [[_ [Ho|[Ho HS]]]|(_&x&a&ys&k0&s0&ks&E&Hx&Hre0&Hst0&Hx0&Hks&Hoth0&Hph&Ho&Hh0)].
             ++ left. intros k1. destruct (Ho k1) as [H1 H2]. split; [done|]. intros E. by eapply had_more, H2.
             ++ right. split; [by eapply Hfin|done].
             ++ left. injection E as -> ->. intros k1. destruct (phase_builds s0 x a ks s M k1 Hph Ho) as [H1 H2]. split; [done|].
             intros [Hold|(r&h&n&Ek&Hn&Hr&Hnr&Hpv&Hvx)]%H2; [by eapply had_more, Hh0|].
             specialize (Hvx Est). destruct Hs' as [_ [_ [Ha _]]]. specialize (Ha x Hx).
             destruct (M' !! x) as [T|] eqn:ET; simpl in Ha; [|congruence]. destruct Ha as ([h' r']&Hv&HT).
             apply (value_of_var P FS cfg eqv good HF t0) in Hv as (Hv&n'&Hn'&_); [|done]. simpl in HT. assert (h' = h) as -> by congruence.
             assert (n' = n) as -> by congruence. exists T, h, n. split; [by exists x|]. split; [done|]. split; [done|].
             rewrite Hnr. unfold built. rewrite Hpv.
             destruct (po_build _ _ _ HP _ _ _ Hr Hpv) as (_&_&Hbk&_). by eapply (eqv_trans _ Heq).
        * destruct (Hsafe _ _ (rtc_refl _ _)) as [[? ?]|[c Hc]]; [done|].
          destruct (sim_start P FS cfg eqv good Heq HP HF t0 lab own makes Hmakes t Ht s o k M c Hs Hc) as (s'&Hs'&Hsim').
          rewrite Hs'. exists (s', true, Call o k), M. split; [done|]. split; [done|]. split; [done|]. cbn [fst snd].
          destruct Hsw as [Hst Hag]. destruct HS as [Hoth [[_ Ho]|[? _]]]; [|done].
          pose proof (had_step s false (Call o k) M over (LStart t o) s' Hs Hh Ht Hs') as Hhad.
          assert (Hoth' : ∀ u, u ≠ t → stack s' u = []).
          { intros u Hne. rewrite <- (Hoth u Hne). exact (step_other P FS cfg s (LStart t o) s' u Hs' Hne). }
          split; [done|].
          assert ((∃ x a ys, o = ONew x a ys) ∨ ∀ x a ys, o ≠ ONew x a ys) as [(x&a&ys&->)|Hno] by (destruct o; [left; eauto|right; done..]).
          -- right. split; [done|]. destruct (phase_start s x a ys s' Hre Hs') as (ks&_&Hx0&Hks&Hph&_).
             destruct Hsim' as [_ (o'&k'&E&Hw)]. injection E as <- <-. simpl in Hw. destruct Hw as (ts&l&r&ks'&Hx&_).
             destruct Ho as [Ho|[Ho _]]; [|by apply Hidle in Ho]. destruct Hhad as [Hov|Hhad]; [by apply Hidle in Hov|].
             by exists x, a, ys, k, s, ks.
          -- left. assert (Hst' : start s t o = Next s') by (simpl in Hs'; by rewrite Hst in Hs'). split; [by eapply calm_start|].
             destruct (quiet_log s (LStart t o) s' Hre Ht Hs') as (new&El&Hsil); [done|done|]. by eapply fine_silent.
      + destruct w; [destruct Hsw as (o'&k'&?&_); done|].
        destruct (Hsafe _ _ (rtc_refl _ _)) as [[? ?]|[c Hc]]; [done|].
        destruct (sim_look P FS cfg eqv good Heq HP HF t0 lab own makes t s x path k M c Hs Hc) as (l&n&El&Hp&Hs').
        cbn [Client.pstep pgo]. rewrite El. exists (s, false, k l n), M. split; [done|]. split; [done|]. split; [by apply rtc_once|]. by apply Hlook.
      + destruct w; [destruct Hsw as (o'&k'&?&_); done|].
        destruct (Hsafe _ _ (rtc_refl _ _)) as [[? ?]|[c Hc]]; [done|].
        destruct (sim_same P FS cfg eqv good Heq HP HF t0 lab Hkey own makes t s x path y path' k M c Hs Hc) as (b&El&Hp&Hs').
        cbn [Client.pstep pgo]. rewrite El. exists (s, false, k b), M. split; [done|]. split; [done|]. split; [by apply rtc_once|]. by apply Hlook.
  Qed.
  Lemma solo_run over ls : final over → idle over → ∀ c M, sim c M → safe c.2 M → hoards over c.2 M → Forall quiet ls → Forall (on_time cfg t0) ls →
    solo over c.1.1 c.1.2 c.2 M →
    ∃ c' M', prun c ls = Some c' ∧ sim c' M' ∧ rtc plain (c.2, M) (c'.2, M') ∧ solo over c'.1.1 c'.1.2 c'.2 M'.
  Proof using Heq HP HF Hkey Hmakes Ht.
    intros Hfin Hidle. induction ls as [|l ls IH]; intros c M Hs Hsafe Hh Hq Hon HS; [by exists c, M|].
    apply Forall_cons in Hq as [Hl Hq], Hon as [Hl' Hon].
    destruct (solo_step over c M l Hfin Hidle Hs Hsafe Hh Hl Hl' HS) as (c1&M1&Hp&Hs1&Hr1&HS1). cbn [Client.prun]. rewrite Hp.
    destruct (IH c1 M1 Hs1) as (c2&M2&Hp2&Hs2&Hr2&HS2); [by eapply safe_plain|by eapply hoards_plain|done|done|done|].
    exists c2, M2. split; [done|]. split; [done|]. split; [by etrans|done].
  Qed.

  (** A program alone in the process that loses no value as long as it constructs
      objects from values: no value is constructed twice, whatever throws and
      however the storage is given out; and, between calls, an object has each
      value that has been constructed. *)
  Theorem C70_once over (p : prog) ls :
    final over → idle over → safe p ∅ → hoards over p ∅ → Forall quiet ls → Forall (on_time cfg t0) ls →
    ∃ s w p' M, prun (init FS, false, p) ls = Some (s, w, p') ∧ rtc plain (p, ∅) (p', M) ∧ (∀ k, builds eqv k (log s) ≤ 1) ∧
      (w = false → over p' M ∨ ∀ k, builds eqv k (log s) = 1 → ∃ x v, own x ∧ value_of s x = Some v ∧ eqv (p_key P v.2) k = true).
  Proof using Heq HP HF Hkey Hmakes Ht.
    intros Hfin Hidle Hsafe Hh Hq Hon.
    destruct (solo_run over ls Hfin Hidle (init FS, false, p) ∅) as ([[s w] p']&M&Hp&Hs&Hr&HS); try done.
    - split; [exists []; split; [by unfold sched_ok; intros; constructor|done]|]. split; [done|]. split; [|by intros x [? ?]]. intros x Hx. rewrite lookup_empty. done.
    - split; [done|]. left. split; [constructor|]. left. intros k. split; [simpl; lia|done].
    - exists s, w, p', M. split; [done|]. split; [done|]. split; [intros k; by eapply solo_builds|]. intros ->.
      destruct HS as [_ [[_ [Ho|[Ho _]]]|[? _]]]; [right|by left|done]. intros k E. apply Ho in E as (T&h&n&HT&Hn&Hsh&Hk).
      destruct Hs as [Hre [Hst [Hag Hown]]]. destruct HT as [x Hx]. assert (Hox : own x) by eauto. pose proof (Hag x Hox) as Hd. rewrite Hx in Hd.
      destruct Hd as (v&Hv&Hsv). exists x, v. split; [done|]. split; [done|]. destruct v as [h' r]. pose proof (inv s Hre) as HI.
      apply (value_of_var P FS cfg eqv good HF t0) in Hv as (_&n'&Hn'&<-&_); [|done]. simpl in *.
      assert (h' = h) as -> by (by eapply (shows_same P FS cfg eqv good Heq HF t0 lab Hkey s h' h n' n T T HI)). by assert (n' = n) as -> by congruence.
  Qed.

  (** An object constructed from a value that the program already has: the call
      constructs nothing. *)
  Theorem C70_reuse s (p : prog) M ls s1 x a ys k c s2 :
    reachable s → stack s t = [] → agrees s M → safe p M → Forall (foreign own t) ls → Forall (on_time cfg t0) ls →
    prun (s, false, p) ls = Some (s1, true, Call (ONew x a ys) k) →
    (∀ M' ts l, rtc plain (p, M) (Call (ONew x a ys) k, M') → Forall2 (λ y T, M' !! y = Some T) ys ts → makes a (length ts) l → has M' (Tree l ts)) →
    step s1 (LRun t c) = Next s2 → ∃ new, log s2 = new ++ log s1 ∧ ∀ h k, EvBuild h k ∉ new.
  Proof using Heq HP HF Hkey Hmakes Ht.
    intros Hre Hst Hag Hsafe Hf Hon Hrun Hhas Hs2.
    destruct (sim_run P FS cfg eqv good Heq HP HF t0 lab Hkey own makes Hmakes t Ht ls (s, false, p) M) as (c1&M1&E&Hs1&Hr); [done|done|done|done|].
    rewrite Hrun in E. injection E as <-. pose proof Hs1 as [Hre1 (o&k'&E&Hw)]. injection E as <- <-. pose proof (inv s1 Hre1) as HI. simpl in Hw.
    destruct Hw as (ts&l&r&ks&Hx&HM&Hts&Hmk&[Hb1 Hb2]&HB&Hl&Hk&Hys).
    destruct (Hhas M1 ts l Hr Hts Hmk) as [y Hy]. assert (Hyx : y ≠ x) by congruence. assert (Ho : own y) by eauto.
    pose proof (Hb1 y Ho Hyx) as Hd. rewrite Hy in Hd. destruct Hd as ([h r']&Hv&HT).
    apply (value_of_var P FS cfg eqv good HF t0) in Hv as (Hv&n&Hn&_); [|done]. simpl in HT.
    (* the keys are equivalent *)
    assert (Ek : eqv (p_key P (n_rep n)) (p_key P r) = true).
    { rewrite Hkey. destruct (shows_inv P FS lab s1 h n _ Hn HT) as (ts'&ET&Hts'). injection ET as El ->.
      rewrite (bool_decide_true (lab (n_rep n) = lab r)) by congruence. simpl. apply bool_decide_eq_true. rewrite Hk.
      apply list_eq_same_length with (length (p_kids P (n_rep n))); [by rewrite (Forall2_length _ _ _ Hts'), <- (Forall2_length _ _ _ Hys), (Forall2_length _ _ _ Hts)|done|].
      intros i b b' _ Hb Hb'. destruct (Forall2_lookup_l _ _ _ _ _ Hts' Hb) as (T&HTi&HbT).
      destruct (Forall2_lookup_r _ _ _ _ _ Hts HTi) as (z&Hz&HzT). pose proof (Forall2_lookup_lr _ _ _ _ _ _ Hys Hz Hb') as Hlz. simpl in Hlz.
      assert (Hoz : own z) by eauto. assert (Hzx : z ≠ x) by congruence. pose proof (Hb1 z Hoz Hzx) as Hdz. rewrite HzT in Hdz.
      destruct (live_denotes P FS cfg t0 lab s1 z T Hre1 Hdz) as (h'&Hh'&HT'). assert (h' = b') as -> by congruence.
      destruct (held_entry P FS cfg eqv good HF t0 s1 b HI) as (m&Hm&_).
      { eapply held_kid; [by eapply held_var|by apply entry_heap in Hn as [? _]|by eapply elem_of_list_lookup_2]. }
      destruct (held_entry P FS cfg eqv good HF t0 s1 b' HI) as (m'&Hm'&_); [by eapply held_var, live_vars|].
      exact (proj2 (shows_same P FS cfg eqv good Heq HF t0 lab Hkey s1 b b' m m' T T HI Hm Hm' HbT HT') eq_refl). }
    destruct (spared s1 (LRun t c) s2 h n Hre1 Ht Hs2) as (new&E1&E2&_); [by eapply var_cnt|done|].
    (* what this thread constructs has the key *)
    destruct (eff_step P FS cfg eqv good Heq HP HF t0 s1 (LRun t c) s2 HI Ht Hs2)
      as [oe _ _ Hve Hlog|u c' y' p' r0 rest a' _ _ _ _ _ _ Hlog
         |u c' y' h' p' ks' k0 rest m El Hst' Hm Hpv _ _ _ _ _ Hlog
         |u c' i rest h' m _ _ _ _ _ _ _ Hlog].
    - exists (option_list oe). split; [done|]. intros h1 k1 Hin; exfalso;
        destruct Hve; simpl in Hin; apply elem_of_list_singleton in Hin || apply elem_of_nil in Hin; done.
    - exists []. split; [done|]. by intros h1 k1 ?%elem_of_nil.
    - exfalso. injection El as <- <-. assert (new = [EvBuild h' k0]) as -> by (apply (app_inv_tail (log s1)); by rewrite <- E1, Hlog).
      specialize (E2 h' k0 (elem_of_list_here _ _)). 
      destruct HB as [(ko&HB&Hko)|[[HB _]|[HB _]]]; rewrite Hst' in HB; simpl in HB; [|done..].
      injection HB as -> <- _. destruct Hko as [?|[= ->]]; [done|congruence].
    - exists [EvErase h' (p_key P (n_rep m))]. split; [done|]. by intros h1 k1 ?%elem_of_list_singleton.
  Qed.

  (** With a policy that constructs the value only once it is stored, as
      key_value does, a value in the container has been constructed. *)
  Theorem C70_constructed s a n : (∀ p ks r, p_make P p ks = Some r → p_val P r = None) → reachable s → entry s a = Some n → is_Some (p_val P (n_rep n)) →
    1 ≤ builds eqv (p_key P (n_rep n)) (log s).
  Proof using Heq HP HF.
    clear Ht. intros Hlate Hre. revert a n. destruct Hre as (ls&Hok&Hrun).
    assert (H0 : reachable (init FS)) by (exists []; split; [by unfold sched_ok; intros; constructor|done]).
    assert (Hi : ∀ a n, entry (init (R:=R) (A:=A) FS) a = Some n → is_Some (p_val P (n_rep n)) → 1 ≤ builds eqv (p_key P (n_rep n)) (log (init (R:=R) (A:=A) FS))) by done.
    revert H0 Hi Hok Hrun. generalize (init (R:=R) (A:=A) FS) as s0. induction ls as [|l ls IH]; intros s0 Hre0 Hi Hok Hrun; cbn [Core.run] in Hrun; [by injection Hrun as <-|].
    assert (Hal : allowed (label_tid l)) by (intros E; by apply Forall_cons in Hok as [? _]).
    assert (Hok' : sched_ok cfg t0 ls) by (intros E; by apply Forall_cons in Hok as [_ ?]).
    destruct (step s0 l) as [s1| |] eqn:Hs; [|by apply (IH s0)|done].
    apply (IH s1); [by eapply (reach_step P FS cfg t0 s0 l s1)| |done|done]. pose proof (inv s0 Hre0) as HI. intros a n Ha Hd.
    assert (Hle : builds eqv (p_key P (n_rep n)) (log s0) ≤ builds eqv (p_key P (n_rep n)) (log s1)).
    { destruct (eff_step P FS cfg eqv good Heq HP HF t0 s0 l s1 HI Hal Hs)
        as [oe _ _ _ Hlog|u c' y' p' r0 rest a' _ _ _ _ _ _ Hlog|u c' y' h' p' ks' k0 rest m _ _ _ _ _ _ _ _ _ Hlog|u c' i rest h' m _ _ _ _ _ _ _ Hlog];
        rewrite Hlog, ?builds_app; simpl; lia. }
    assert (Hold : ∀ m, entry s0 a = Some m → n_rep m = n_rep n → 1 ≤ builds eqv (p_key P (n_rep n)) (log s1)).
    { intros m Hm E. etrans; [|exact Hle]. rewrite <- E. apply (Hi a m Hm). by rewrite E. }
    destruct (eff_step P FS cfg eqv good Heq HP HF t0 s0 l s1 HI Hal Hs)
      as [oe Hsh _ Hve Hlog|u c' y' p' r0 rest a' El Hst Hno _ He Hvars Hlog
         |u c' y' h' p' ks' k0 rest m El Hst' Hm Hpv Hbv Hbk Hk0 He Hvars Hlog
         |u c' i rest h' m El Hst Hi' Hm Hc0 He Hvars Hlog].
    - destruct Hsh as [_ Hsh]. destruct (Hsh a n Ha) as (m&Hm&E&_). by apply (Hold m).
    - rewrite He in Ha. destruct (decide (a = a')) as [->|]; [|by apply (Hold n)]. injection Ha as <-. simpl in Hd.
      destruct (i_head _ _ _ _ _ (i_C _ _ _ _ _ _ _ _ HI) u _ _ Hst) as [ks Hr]. rewrite (Hlate _ _ _ Hr) in Hd. by destruct Hd.
    - rewrite He in Ha. destruct (decide (a = h')) as [->|]; [|by apply (Hold n)]. injection Ha as <-. simpl in *.
      rewrite Hlog. simpl. assert (eqv k0 (p_key P (p_build P p' (n_rep m))) = true) as ->; [|lia].
      apply (eqv_sym _ Heq). by eapply (eqv_trans _ Heq).
    - rewrite He in Ha. destruct (decide (a = h')) as [->|]; [done|]. by apply (Hold n).
  Qed.
End Kept.
