(** Happens-before in [CoreHb.v]: it is a partial order that contains the order
    of the accesses of each thread, and every new event is ordered after the
    accesses it conflicts with as long as its thread knows them. *)
From Verif Require Export CoreHb.

Definition closed (c : hb) (E : gset nat) : Prop := ∀ e, e ∈ E → ∃ D, past c !! e = Some D ∧ D ⊆ E.
Definition clash (a : acc) (l : mloc * kind) : Prop :=
  a_loc a = l.1 ∧ ¬ (a_kind a = Read ∧ l.2 = Read) ∧ ¬ (a_kind a = Atomic ∧ l.2 = Atomic).

Record hwf (c : hb) : Prop := Wf {
  w_dom : ∀ e D, past c !! e = Some D → e < nxt c;
  w_past : ∀ e D, past c !! e = Some D → closed c D ∧ ∀ e', e' ∈ D → e' < e;
  w_kn : ∀ t, closed c (knows c t);
  w_mset : closed c (mset c);
  w_nd : ∀ h i E, nd c !! h = Some (i, E) → closed c E;
  w_ob : ∀ x w r, ob c !! x = Some (w, r) → closed c w ∧ closed c r;
  w_tr : ∀ a, a ∈ tr c → a_ev a ∈ knows c (a_tid a);
  w_drf : ∀ a b, a ∈ tr c → b ∈ tr c → a_ev a < a_ev b → conflict a b ∨ a_tid a = a_tid b → before c (a_ev a) (a_ev b);
}.

Lemma closed_union c E F : closed c E → closed c F → closed c (E ∪ F).
Proof. intros HE HF e [He|He]%elem_of_union; [destruct (HE e He) as (D&?&?)|destruct (HF e He) as (D&?&?)]; exists D; set_solver. Qed.
Lemma closed_empty c : closed c ∅.
Proof. intros e He. by apply elem_of_empty in He. Qed.
Lemma closed_past c c' E : (∀ e D, past c !! e = Some D → past c' !! e = Some D) → closed c E → closed c' E.
Proof. intros H HE e He. destruct (HE e He) as (D&?&?). eauto. Qed.
Lemma closed_lt c E e : hwf c → closed c E → e ∈ E → e < nxt c.
Proof. intros W HE He. destruct (HE e He) as (D&HD&_). by eapply w_dom. Qed.

Lemma knows_insert (t u : nat) (E : gset nat) (k : gmap nat (gset nat)) :
  default ∅ (<[t:=E]> k !! u) = if decide (u = t) then E else (default ∅ (k !! u) : gset nat).
Proof. case_decide as Hu; [subst; by rewrite lookup_insert|by rewrite lookup_insert_ne]. Qed.
Lemma knows_learn t E c u : knows (learn t E c) u = if decide (u = t) then knows c t ∪ E else knows c u.
Proof. apply knows_insert. Qed.
Lemma knows_emit t ls c u : knows (emit t ls c) u = if decide (u = t) then knows c t ∪ {[nxt c]} else knows c u.
Proof. apply knows_insert. Qed.
Lemma before_past c c' e e' : (∀ e D, past c !! e = Some D → past c' !! e = Some D) → before c e e' → before c' e e'.
Proof. intros H (D&?&?). exists D. eauto. Qed.

Lemma learn_wf t E c : hwf c → closed c E → hwf (learn t E c).
Proof.
  intros [Wd Wp Wk Wm Wn Wo Wt Wr] HE. split; try done.
  - intros u. rewrite knows_learn. case_decide; [|by apply Wk]. apply closed_union; [apply Wk|done].
  - intros a Ha. rewrite knows_learn. specialize (Wt a Ha). case_decide as Hu; [|done]. rewrite Hu in Wt. set_solver.
Qed.
Lemma set_mset_wf E c : hwf c → closed c E → hwf (set_mset E c).
Proof. intros [Wd Wp Wk Wm Wn Wo Wt Wr] HE. by split. Qed.
Lemma set_ob_wf m c : hwf c → (∀ x w r, m !! x = Some (w, r) → closed c w ∧ closed c r) → hwf (set_ob m c).
Proof. intros [Wd Wp Wk Wm Wn Wo Wt Wr] HE. by split. Qed.
Lemma set_nd_wf m c : hwf c → (∀ h i E, m !! h = Some (i, E) → closed c E) → hwf (set_nd m c).
Proof. intros [Wd Wp Wk Wm Wn Wo Wt Wr] HE. by split. Qed.
Lemma rel_wf h E c : hwf c → closed c E → hwf (rel h E c).
Proof.
  intros W HE. unfold rel. destruct (nd c !! h) as [[i E0]|] eqn:Eh; [|done]. apply set_nd_wf; [done|].
  intros h' i' E' H. apply lookup_insert_Some in H as [[<- [= <- <-]]|[_ H]]; [|by eapply w_nd].
  apply closed_union; [by eapply w_nd|done].
Qed.
Lemma past_emit t ls c e D : hwf c → past c !! e = Some D → past (emit t ls c) !! e = Some D.
Proof. intros W H. simpl. rewrite lookup_insert_ne; [done|]. intros <-. apply (w_dom _ W) in H. lia. Qed.
Lemma emit_wf t ls c : hwf c → (∀ a l, a ∈ tr c → l ∈ ls → clash a l → a_ev a ∈ knows c t) → hwf (emit t ls c).
Proof.
  intros W Hs. pose proof (λ e D, past_emit t ls c e D W) as Hp. pose proof W as [Wd Wp Wk Wm Wn Wo Wt Wr].
  assert (∀ E, closed c E → closed (emit t ls c) E) as Hc by (intros E; by apply closed_past).
  assert (∀ a, a ∈ tr c → a_ev a < nxt c) as Hlt by (intros a Ha; eapply closed_lt; [done|apply Wk|by apply Wt]).
  split.
  - intros e D H. simpl in *. apply lookup_insert_Some in H as [[<- _]|[_ H]]; [lia|]. apply Wd in H. lia.
  - intros e D H. simpl in H. apply lookup_insert_Some in H as [[<- <-]|[_ H]].
    + split; [by apply Hc|]. intros e' He. by eapply (closed_lt c (knows c t)).
    + destruct (Wp _ _ H). auto.
  - intros u. rewrite knows_emit. case_decide; [|by apply Hc]. intros e [He| ->%elem_of_singleton]%elem_of_union.
    + destruct (Hc _ (Wk t) e He) as (D&?&?). exists D. split; [done|set_solver].
    + exists (knows c t). simpl. rewrite lookup_insert. split; [done|set_solver].
  - by apply Hc.
  - intros h i E H. by eapply Hc, Wn.
  - intros x w r H. destruct (Wo _ _ _ H). auto.
  - intros a Ha. rewrite knows_emit. simpl in Ha. apply elem_of_app in Ha as [(l&->&_)%elem_of_list_fmap|Ha]; simpl.
    + rewrite decide_True by done. set_solver.
    + specialize (Wt a Ha). case_decide as Hu; [|done]. rewrite Hu in Wt. set_solver.
  - intros a b Ha Hb Hl Hab. simpl in Ha, Hb. apply elem_of_app in Ha as [(la&->&Hla)%elem_of_list_fmap|Ha],
      Hb as [(lb&->&Hlb)%elem_of_list_fmap|Hb]; simpl in *.
    + lia.
    + specialize (Hlt b Hb). lia.
    + exists (knows c t). simpl. rewrite lookup_insert. split; [done|]. destruct Hab as [Hab|Hab]; [|rewrite <- Hab; by apply Wt].
      apply (Hs a lb); done.
    + eapply before_past; [done|]. by apply Wr.
Qed.
