(** The text processing of parallel.cpp: proofs. *)
From Coq Require Import Ascii Sorted.
From stdpp Require Import sorting.
From Verif Require Import SerializeProofs Policies Instances.
From Verif Require Export Parallel.

(** ** What the words of a range of the text are *)
Definition alpha (txt : word) (i : nat) : Prop := ∃ c, txt !! i = Some c ∧ letter c = true.
Definition run_in (txt : word) (first last b e : nat) : Prop :=
  first ≤ b ∧ b < e ∧ e ≤ last ∧ (∀ i, b ≤ i → i < e → alpha txt i) ∧ (e = last ∨ ¬ alpha txt e) ∧ (b = first ∨ ∃ i, b = S i ∧ ¬ alpha txt i).
(** in the order of the text *)
Definition before (p q : nat * nat) : Prop := p.2 < q.1.
Definition words_in (txt : word) (first last : nat) (l : list (nat * nat)) : Prop :=
  StronglySorted before l ∧ ∀ b e, (b, e) ∈ l ↔ run_in txt first last b e.

Lemma words_in_fun txt f la l l' : words_in txt f la l → words_in txt f la l' → l = l'.
Proof.
  intros [S1 H1] [S2 H2].
  assert (Hn : ∀ l, StronglySorted before l → (∀ b e, (b, e) ∈ l → b < e) → NoDup l ∧ StronglySorted (λ p q : nat * nat, p.1 < q.1) l).
  { clear. induction 1 as [|[b e] l Hs IH Hf]; intros Hb; [by split; constructor|]. destruct IH as [IH1 IH2]; [intros b' e' ?; apply Hb; by right|].
    assert (b < e) by (apply Hb; by left). rewrite Forall_forall in Hf. split; constructor; try done.
    - intros Hin. specialize (Hf _ Hin). unfold before in Hf. simpl in Hf. lia.
    - apply Forall_forall. intros [b' e'] Hin. specialize (Hf _ Hin). unfold before in Hf. simpl in *. lia. }
  destruct (Hn l S1) as [N1 T1]; [intros b e (_&?&_)%H1; done|]. destruct (Hn l' S2) as [N2 T2]; [intros b e (_&?&_)%H2; done|].
  assert (AntiSymm eq (λ p q : nat * nat, p.1 < q.1)) by (intros [] [] ? ?; simpl in *; lia).
  eapply StronglySorted_unique; [done|exact T1|exact T2|]. apply NoDup_Permutation; [done|done|]. intros [b e]. by rewrite H1, H2.
Qed.

Lemma tok_words txt f0 la : la ≤ length txt → ∀ fuel f bw, f0 ≤ f → f ≤ la → la - f < fuel →
  match bw with
  | None => f = f0 ∨ ∃ i, f = S i ∧ ¬ alpha txt i
  | Some b => f0 ≤ b ∧ b < f ∧ (∀ i, b ≤ i → i < f → alpha txt i) ∧ (b = f0 ∨ ∃ i, b = S i ∧ ¬ alpha txt i)
  end →
  ∃ l, tok fuel txt f la bw = Some l ∧ StronglySorted before l ∧ Forall (λ p, match bw with Some b => b | None => f end ≤ p.1) l ∧
    ∀ b e, (b, e) ∈ l ↔ run_in txt f0 la b e ∧ match bw with Some b0 => b0 | None => f end ≤ b.
Proof.
  intros Hla. induction fuel as [|fuel IH]; intros f bw Hf0 Hf Hfu Hbw; [lia|]. cbn [tok]. destruct (Nat.eqb_spec f la) as [->|Hne].
  { destruct bw as [b|].
    - exists [(b, la)]. destruct Hbw as (?&?&Hl&Hb). split; [done|]. split; [by repeat constructor|]. split; [by constructor|].
      intros b' e'. rewrite elem_of_list_singleton. split.
      + intros [= -> ->]. split; [|lia]. split_and!; try done; by left.
      + intros [(?&?&?&Hl'&He&Hb') ?].
        assert (b' = b) as ->.
        { destruct (decide (b' = b)) as [|Hn]; [done|]. destruct Hb' as [->|(i&->&Hi)]; [lia|]. destruct Hi. apply Hl; lia. }
        f_equal. destruct He as [->|He]; [done|]. destruct (decide (e' = la)); [done|]. destruct He. apply Hl; lia.
    - exists []. split; [done|]. split; [constructor|]. split; [constructor|]. intros b e. split; [by intros ?%not_elem_of_nil|]. intros [(?&?&?&_) ?]. lia. }
  destruct (lookup_lt_is_Some_2 txt f) as [c Hc]; [lia|]. rewrite Hc.
  assert (Hal : alpha txt f ↔ letter c = true) by (split; [intros (c'&?&?); by simplify_eq|intros; by exists c]).
  destruct bw as [b|]; destruct (letter c) eqn:El.
  - destruct Hbw as (H1&H2&H3&H4). destruct (IH (S f) (Some b)) as (l&E&Hs&Hfa&Hl); [lia|lia|lia| |by exists l].
    split_and!; try done; try lia. intros i ? ?. destruct (decide (i = f)) as [->|]; [by apply Hal|]. apply H3; lia.
  - destruct Hbw as (H1&H2&H3&H4). destruct (IH (S f) None) as (l&E&Hs&Hfa&Hl); [lia|lia|lia|right; exists f; split; [done|]; by rewrite Hal|].
    rewrite E. exists ((b, f) :: l). split; [done|]. split; [|split].
    + constructor; [done|]. eapply Forall_impl; [exact Hfa|]. intros [b' e']. unfold before. simpl. lia.
    + constructor; [simpl; lia|]. eapply Forall_impl; [exact Hfa|]. intros [b' e']. simpl. lia.
    + intros b' e'. rewrite elem_of_cons, Hl. split.
      * intros [[= -> ->]|[Hr ?]]; [|split; [done|lia]]. split; [|lia]. split_and!; try done. right. by rewrite Hal.
      * intros [Hr Hb']. destruct (decide (S f ≤ b')) as [|Hlt]; [by right|]. left. destruct Hr as (R1&R2&R3&R4&R5&R6).
        assert (e' ≤ f) as He. { destruct (decide (e' ≤ f)); [done|]. assert (alpha txt f) as Ha by (apply R4; lia). apply Hal in Ha. done. }
        assert (b' = b) as ->.
        { destruct (decide (b' = b)) as [|Hn]; [done|]. destruct R6 as [->|(i&->&Hi)]; [lia|]. destruct Hi. apply H3; lia. }
        f_equal. destruct R5 as [->|R5]; [lia|]. destruct (decide (e' = f)); [done|]. destruct R5. apply H3; lia.
  - destruct (IH (S f) (Some f)) as (l&E&Hs&Hfa&Hl); [lia|lia|lia| |by exists l].
    split; [done|]. split; [lia|]. split; [|done]. intros i ? ?. assert (i = f) as -> by lia. by apply Hal.
  - destruct (IH (S f) None) as (l&E&Hs&Hfa&Hl); [lia|lia|lia|right; exists f; split; [done|]; by rewrite Hal|].
    exists l. split; [done|]. split; [done|]. split; [eapply Forall_impl; [exact Hfa|]; intros [b' e']; simpl; lia|].
    intros b' e'. rewrite Hl. split; [intros [? ?]; split; [done|lia]|]. intros [Hr ?]. split; [done|]. destruct (decide (b' = f)) as [->|]; [|lia].
    destruct Hr as (R1&R2&R3&R4&_). assert (alpha txt f) as Ha%Hal by (apply R4; lia). done.
Qed.
Lemma tokenize_words txt f la : f ≤ la → la ≤ length txt → ∃ l, tokenize txt f la = Some l ∧ words_in txt f la l.
Proof.
  intros Hf Hla. destruct (tok_words txt f la Hla (S (length txt)) f None) as (l&E&Hs&_&Hl); [done|done|lia|by left|].
  exists l. split; [done|]. split; [done|]. intros b e. rewrite Hl. split; [by intros [? _]|]. intros Hr. split; [done|]. by destruct Hr.
Qed.
Lemma words_in_app txt f m la l l' : f ≤ m → m ≤ la → (m = la ∨ ¬ alpha txt m) → words_in txt f m l → words_in txt m la l' → words_in txt f la (l ++ l').
Proof.
  intros Hf Hla Hm [S1 H1] [S2 H2].
  (* a word does not start where the first range ends, unless it is a letter *)
  assert (H2' : ∀ b e, (b, e) ∈ l' → m < b).
  { intros b e (R1&R2&R3&R4&R5&R6)%H2. destruct (decide (b = m)) as [->|]; [|lia]. destruct Hm as [->|Hm]; [lia|]. destruct Hm. apply R4; lia. }
  split.
  - clear H2. assert (∀ b e, (b, e) ∈ l → e ≤ m) as H1' by (intros b e (?&?&?&_)%H1; done). clear H1. induction S1 as [|[b e] l S1 IH Hb]; [done|]. simpl. constructor.
    + apply IH. intros b' e' ?. eapply H1'. by right.
    + apply Forall_app. split; [done|]. apply Forall_forall. intros [b' e'] Hin%H2'. unfold before. simpl. specialize (H1' b e). assert (e ≤ m) by (apply H1'; by left). lia.
  - intros b e. rewrite elem_of_app. rewrite H1. split.
    + intros [(R1&R2&R3&R4&R5&R6)|Hin].
      * split_and!; try done; try lia. destruct R5 as [->|R5]; [|by right]. destruct Hm as [->|Hm]; [by left|by right].
      * pose proof (H2' _ _ Hin). apply H2 in Hin as (R1&R2&R3&R4&R5&R6). split_and!; try done; try lia. destruct R6 as [->|R6]; [lia|by right].
    + intros (R1&R2&R3&R4&R5&R6). destruct (decide (e ≤ m)) as [He|He].
      * left. split_and!; try done. destruct R5 as [->|R5]; [|by right]. left. lia.
      * right. apply H2. assert (m < b) as Hmb.
        { destruct (decide (m < b)); [done|]. destruct Hm as [->|Hm]; [lia|]. destruct Hm. apply R4; lia. }
        split_and!; try done; try lia. destruct R6 as [->|R6]; [lia|by right].
Qed.

Lemma past_word_spec txt : ∀ fuel it, it ≤ length txt → length txt - it ≤ fuel → let r := past_word fuel txt it in it ≤ r ∧ r ≤ length txt ∧ ¬ alpha txt r.
Proof.
  induction fuel as [|fuel IH]; intros it Hit Hfu; cbn [past_word].
  - split; [done|]. split; [done|]. intros (c&Hc%lookup_lt_Some&_). lia.
  - destruct (txt !! it) as [c|] eqn:Hc.
    + destruct (letter c) eqn:El; [|split; [done|]; split; [done|]; intros (c'&?&?); congruence].
      apply lookup_lt_Some in Hc. destruct (IH (S it)) as (?&?&?); [lia|lia|]. split_and!; [lia|done|done].
    + split; [done|]. split; [done|]. intros (c'&?&?). congruence.
Qed.
Lemma chunks_words txt k : ∀ pos, pos ≤ length txt → ∃ css, tokens_of txt pos (boundaries txt (S k) pos) = Some css ∧ length css = S k ∧ words_in txt pos (length txt) (concat css).
Proof.
  induction k as [|k IH]; intros pos Hpos.
  - cbn [boundaries tokens_of]. rewrite Nat.div_1_r. replace (pos + (length txt - pos)) with (length txt) by lia.
    destruct (past_word_spec txt (length txt) (length txt)) as (H1&H2&_); [lia|lia|]. replace (past_word (length txt) txt (length txt)) with (length txt) by lia.
    destruct (tokenize_words txt pos (length txt)) as (l&E&Hl); [done|done|]. rewrite E. exists [l]. split; [done|]. split; [done|]. simpl. by rewrite app_nil_r.
  - remember (S k) as k'. cbn [boundaries]. set (it := past_word _ _ _).
    assert (Hd : (length txt - pos) / S k' ≤ length txt - pos) by (apply Nat.div_le_upper_bound; nia).
    destruct (past_word_spec txt (length txt) (pos + (length txt - pos) / S k')) as (H1&H2&H3); [lia|lia|]. fold it in H1, H2, H3.
    cbn [tokens_of]. destruct (tokenize_words txt pos it) as (l&E&Hl); [lia|done|]. rewrite E. destruct (IH it H2) as (css&E'&Hn&Hw). rewrite E'.
    exists (l :: css). split; [done|]. split; [simpl; by rewrite Hn|]. cbn [concat]. eapply words_in_app; [| |by right|done|done]; lia.
Qed.
