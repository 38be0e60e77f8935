(** C66: the text processing of example/html.cpp. *)
From Coq Require Import Ascii.
From Verif Require Import Prelude Html.

(** ** What a tag is *)
Definition quotes (s : word) : nat := length (filter (λ c, c = dquote) s).
(** the text of a tag: up to the first '>' outside quotes *)
Definition tag_end (s : word) : Prop := Nat.even (quotes s) = true ∧ ∀ p r, s = p ++ ">"%char :: r → Nat.odd (quotes p) = true.
Definition props_ok (sep props : word) : Prop := Forall (λ c, blank c) sep ∧ match props with [] => True | c :: _ => visible c ∧ sep ≠ [] end.
Inductive tag_shape : word → tag_type → tag → Prop :=
| Sh_open ws c w sep props : Forall (λ c, blank c) ws → Forall (λ c, visible c) (c :: w) → c ≠ "/"%char → props_ok sep props →
    tag_shape (ws ++ (c :: w) ++ sep ++ props) opening (lower <$> c :: w, props)
| Sh_close ws w sep props : Forall (λ c, blank c) ws → Forall (λ c, visible c) w → props_ok sep props →
    tag_shape (ws ++ ("/"%char :: w) ++ sep ++ props) closing (lower <$> w, props).

(** ** Searching *)
Lemma find_from_app f a s i : find_from f (a ++ s) (length a + i) = (λ j, length a + j) <$> find_from f s i.
Proof.
  induction a as [|c a IH]; simpl; [by destruct (find_from f s i)|]. rewrite IH. by destruct (find_from f s i).
Qed.
Lemma find_from_app0 f a s : find_from f (a ++ s) (length a) = (λ j, length a + j) <$> find_from f s 0.
Proof. rewrite <- find_from_app. by rewrite Nat.add_0_r. Qed.
Lemma find_from_skip f a s : Forall (λ c, f c = false) a → find_from f (a ++ s) 0 = (λ j, length a + j) <$> find_from f s 0.
Proof.
  induction 1 as [|c a Hc _ IH]; simpl; [by destruct (find_from f s 0)|]. rewrite Hc, IH. by destruct (find_from f s 0).
Qed.
Lemma find_from_none f a : Forall (λ c, f c = false) a → find_from f a 0 = None.
Proof. induction 1 as [|c a Hc _ IH]; simpl; [done|]. by rewrite Hc, IH. Qed.
Lemma span (f : ascii → bool) s : ∃ a r, s = a ++ r ∧ Forall (λ c, f c) a ∧ match r with [] => True | c :: _ => f c = false end.
Proof.
  induction s as [|c s (a&r&->&Ha&Hr)]; [by exists [], []|]. destruct (f c) eqn:E; [|by exists [], (c :: a ++ r)].
  exists (c :: a), r. split; [done|]. split; [|done]. constructor; [by rewrite E|done].
Qed.
Lemma blanks_invisible a : Forall (λ c, blank c) a → Forall (λ c, visible c = false) a.
Proof. intros H. eapply Forall_impl; [exact H|]. intros c Hc%Is_true_true. unfold visible. by rewrite Hc. Qed.
Lemma visibles_unblank a : Forall (λ c, visible c) a → Forall (λ c, blank c = false) a.
Proof. intros H. eapply Forall_impl; [exact H|]. intros c Hc%Is_true_true. unfold visible in Hc. by apply negb_true_iff. Qed.

Lemma tag_of_eq ws c w sep props : Forall (λ c, blank c) ws → Forall (λ c, visible c) (c :: w) → props_ok sep props →
  tag_of (ws ++ (c :: w) ++ sep ++ props) =
    Some (if decide (c = "/"%char) then (closing, (lower <$> w, props)) else (opening, (lower <$> c :: w, props))).
Proof.
  intros Hws Hw [Hsep Hp]. set (buf := ws ++ (c :: w) ++ sep ++ props). set (b := length ws).
  assert (Hb : find_from visible buf 0 = Some b).
  { unfold buf. rewrite find_from_skip by (by apply blanks_invisible). simpl. apply Forall_cons in Hw as [Hc _].
    destruct (visible c); [|done]. simpl. f_equal. unfold b. lia. }
  assert (He : find_from blank buf b = match sep with [] => None | _ => Some (b + length (c :: w)) end).
  { unfold buf, b. rewrite find_from_app0, find_from_skip by (by apply visibles_unblank). destruct sep as [|d sep].
    - assert (props = []) as -> by (destruct props; [done|by destruct Hp]). done.
    - apply Forall_cons in Hsep as [Hd _]. simpl. destruct (blank d); [|done]. simpl. f_equal. lia. }
  assert (Hbc : buf !! b = Some c) by (by apply (list_lookup_middle ws (w ++ sep ++ props))).
  assert (Hpr : match match sep with [] => None | _ => Some (b + length (c :: w)) end with Some e => find_from visible buf e | None => None end
    = match props with [] => None | _ => Some (b + length (c :: w) + length sep) end).
  { destruct sep as [|d sep]; [destruct props; [done|by destruct Hp]|].
    unfold buf, b. rewrite app_assoc, <- app_length, find_from_app0, find_from_skip by (by apply blanks_invisible).
    destruct props as [|e props]; [done|]. destruct Hp as [He' _]. cbn [find_from]. destruct (visible e); [|done]. simpl. f_equal. lia. }
  unfold tag_of. fold buf. rewrite Hb, He, Hpr.
  assert (Hprops : match match props with [] => None | _ => Some (b + length (c :: w) + length sep) end with Some p => substr buf p None | None => [] end = props).
  { destruct props as [|e props]; [done|]. simpl. unfold buf, b. rewrite !app_assoc. rewrite drop_app_alt; [done|]. rewrite !app_length. simpl. lia. }
  assert (Hsub : ∀ k, k ≤ 1 → substr buf (b + k) (match sep with [] => None | _ => Some (b + length (c :: w)) end) = drop k (c :: w)).
  { intros k Hk. destruct sep as [|d sep]; unfold substr, buf, b.
    - assert (props = []) as -> by (destruct props; [done|by destruct Hp]). rewrite !app_nil_r, <- drop_drop, drop_app. done.
    - rewrite <- drop_drop, drop_app. replace (length ws + length (c :: w) - (length ws + k)) with (length (drop k (c :: w))) by (rewrite drop_length; lia).
      rewrite drop_app_le by (simpl; lia). by rewrite take_app. }
  cbv zeta. rewrite Hprops, Hbc. destruct (decide (c = "/"%char)) as [->|Hc].
  - rewrite bool_decide_true by done. rewrite <- (Nat.add_1_r b), Hsub by lia. done.
  - rewrite bool_decide_false by congruence. rewrite <- (Nat.add_0_r b) at 1. by rewrite Hsub by lia.
Qed.
Lemma tag_of_spec buf ty t : tag_of buf = Some (ty, t) ↔ tag_shape buf ty t.
Proof.
  split.
  - intros H. destruct (span blank buf) as (ws&r1&->&Hws&H1). destruct r1 as [|c r1].
    { rewrite app_nil_r in H. unfold tag_of in H. rewrite find_from_none in H by (by apply blanks_invisible). done. }
    destruct (span visible (c :: r1)) as (w&r2&Er&Hw&H2). destruct w as [|c' w].
    { simpl in Er. subst r2. unfold visible in H2. by rewrite H1 in H2. }
    simpl in Er. injection Er as <- ->. destruct (span blank r2) as (sep&props&->&Hsep&H3).
    assert (Hp : props_ok sep props).
    { split; [done|]. destruct props as [|d props]; [done|]. unfold visible at 1. rewrite H3. split; [done|]. intros ->. simpl in H2.
      unfold visible in H2. by rewrite H3 in H2. }
    pose proof (tag_of_eq ws c w sep props Hws Hw Hp) as He. simpl in He. rewrite He in H. injection H as H.
    destruct (decide (c = "/"%char)) as [->|Hc]; injection H as <- <-.
    + apply (Sh_close ws w sep props); [done| |done]. by apply Forall_cons in Hw as [_ ?].
    + by apply (Sh_open ws c w sep props).
  - intros H. inversion H; subst.
    + pose proof (tag_of_eq ws c w sep props) as He. rewrite decide_False in He by done. by apply He.
    + pose proof (tag_of_eq ws "/"%char w sep props) as He. rewrite decide_True in He by done. apply He; [done| |done]. by constructor.
Qed.

(** ** Quotes *)
Definition qnext (q : bool) (c : ascii) : bool := if decide (c = dquote) then negb q else q.
Fixpoint qrun (q : bool) (s : word) : option bool :=
  match s with
  | [] => Some q
  | c :: s => if bool_decide (c = ">"%char) && negb q then None else qrun (qnext q c) s
  end.
Lemma qrun_app q s s' : qrun q (s ++ s') = match qrun q s with Some q' => qrun q' s' | None => None end.
Proof. revert q. induction s as [|c s IH]; intros q; [done|]. simpl. destruct (bool_decide (c = ">"%char) && negb q); [done|apply IH]. Qed.
Lemma quotes_cons c s : quotes (c :: s) = (if decide (c = dquote) then 1 else 0) + quotes s.
Proof. unfold quotes. rewrite filter_cons. by case_decide. Qed.
Lemma odd_xor q n : xorb q (Nat.odd (S n)) = xorb (negb q) (Nat.odd n).
Proof. rewrite Nat.odd_succ, <- Nat.negb_odd. by destruct q, (Nat.odd n). Qed.
Lemma qnext_odd q c s : xorb q (Nat.odd (quotes (c :: s))) = xorb (qnext q c) (Nat.odd (quotes s)).
Proof. rewrite quotes_cons. unfold qnext. case_decide; [apply odd_xor|done]. Qed.
Lemma qrun_spec s : ∀ q q', qrun q s = Some q' ↔ xorb q (Nat.odd (quotes s)) = q' ∧ ∀ p r, s = p ++ ">"%char :: r → xorb q (Nat.odd (quotes p)) = true.
Proof.
  induction s as [|c s IH]; intros q q'; cbn [qrun].
  { split; [intros [= <-]|intros [<- _]]; [split; [by destruct q|]; intros p r E; by destruct p|by destruct q]. }
  destruct (bool_decide (c = ">"%char) && negb q) eqn:E.
  - split; [done|]. intros [_ H]. apply andb_true_iff in E as [->%bool_decide_eq_true Hq]. specialize (H [] s eq_refl). by destruct q.
  - rewrite IH, <- qnext_odd. split; intros [H1 H2]; (split; [done|]); intros p r Ep.
    + destruct p as [|d p]; simpl in Ep; injection Ep as -> Ep; [|rewrite qnext_odd; by eapply H2].
      rewrite bool_decide_true in E by done. by destruct q.
    + rewrite <- qnext_odd. eapply (H2 (c :: p) r). by rewrite Ep.
Qed.
Lemma tag_end_run s : tag_end s ↔ qrun false s = Some false.
Proof.
  rewrite qrun_spec. unfold tag_end. rewrite <- Nat.negb_odd. rewrite xorb_false_l.
  split; intros [H1 H2]; (split; [by destruct (Nat.odd (quotes s))|]); intros p r Ep; specialize (H2 p r Ep); by rewrite ?xorb_false_l in *.
Qed.
Lemma parse_tag_run cs : ∀ buf q ty t rest, parse_tag cs buf q = Some (ty, t, rest) ↔
  ∃ body, cs = body ++ ">"%char :: rest ∧ qrun q body = Some false ∧ tag_of (buf ++ body) = Some (ty, t).
Proof.
  induction cs as [|c cs IH]; intros buf q ty t rest; cbn [parse_tag].
  { split; [done|]. intros (body&E&_). by destruct body. }
  destruct (bool_decide (c = ">"%char) && negb q) eqn:E.
  - apply andb_true_iff in E as [->%bool_decide_eq_true Hq]. destruct q; [done|]. split.
    + destruct (tag_of buf) as [[ty' t']|] eqn:Et; [|done]. intros [= -> -> ->]. exists []. by rewrite app_nil_r.
    + intros ([|d body]&Eb&Hr&Ht).
      * rewrite app_nil_r in Ht. rewrite Ht. simpl in Eb. by injection Eb as ->.
      * simpl in Eb. injection Eb as <- Eb. simpl in Hr. done.
  - fold (qnext q c). rewrite IH. split.
    + intros (body&->&Hr&Ht). exists (c :: body). split; [done|]. rewrite <- app_assoc in Ht. split; [|done]. cbn [qrun]. by rewrite E.
    + intros ([|d body]&Eb&Hr&Ht); simpl in Eb; injection Eb as -> Eb.
      * simpl in Hr. injection Hr as ->. simpl in E. done.
      * cbn [qrun] in Hr. rewrite E in Hr. exists body. split; [done|]. split; [done|]. by rewrite <- app_assoc.
Qed.
Theorem C66_parse cs ty t rest : parse_tag cs [] false = Some (ty, t, rest) ↔
  ∃ body, cs = body ++ ">"%char :: rest ∧ tag_end body ∧ tag_shape body ty t.
Proof.
  rewrite parse_tag_run. split; intros (body&H1&H2&H3); exists body; (split; [done|]); (split; [by apply tag_end_run|]); by apply tag_of_spec.
Qed.

(** ** Reading past the end *)
Lemma parse_tag_len cs ty t rest : parse_tag cs [] false = Some (ty, t, rest) → length rest < length cs ∧ last ("<"%char :: cs) = match rest with [] => Some ">"%char | _ => last rest end.
Proof.
  intros (body&->&_)%C66_parse. split; [rewrite app_length; simpl; lia|].
  rewrite last_cons. assert (Hl : last (body ++ ">"%char :: rest) = match rest with [] => Some ">"%char | _ => last rest end).
  { rewrite last_app. destruct rest as [|c rest]; [done|]. rewrite last_cons. destruct (last (c :: rest)) eqn:E; [done|]. by apply last_None in E. }
  rewrite Hl. destruct rest as [|c rest]; [done|]. destruct (last (c :: rest)) eqn:E; [done|]. by apply last_None in E.
Qed.
Fixpoint trail (s : word) : nat :=
  match s with [] => 0 | c :: s' => if decide (Forall (λ c, c = "<"%char) s) then length s else trail s' end.
Lemma trail_app s r c : c ≠ "<"%char → trail (s ++ c :: r) = trail r.
Proof.
  intros Hc. induction s as [|d s IH]; cbn [trail app].
  - rewrite decide_False; [done|]. by intros [? _]%Forall_cons.
  - rewrite decide_False; [done|]. intros [_ H]%Forall_cons. apply Forall_app in H as [_ [? _]%Forall_cons]. done.
Qed.
Lemma trail_two r : Nat.odd (trail ("<"%char :: "<"%char :: r)) = Nat.odd (trail r).
Proof.
  destruct (decide (Forall (λ c, c = "<"%char) r)) as [Hr|Hr].
  - assert (trail r = length r) as -> by (destruct r; [done|]; cbn [trail]; by rewrite decide_True).
    cbn [trail]. rewrite decide_True by (by repeat constructor). by cbn [length].
  - cbn [trail]. rewrite !decide_False; [done|..]; intros H; destruct Hr; repeat apply Forall_cons in H as [_ H]; done.
Qed.
Lemma trail_replicate m s : last s ≠ Some "<"%char → trail (s ++ replicate m "<"%char) = m.
Proof.
  induction s as [|c s IH]; intros Hl; cbn [app].
  - destruct m; [done|]. cbn [replicate trail]. rewrite decide_True; [cbn [length]; by rewrite replicate_length|].
    constructor; [done|]. by apply Forall_replicate.
  - cbn [trail]. destruct s as [|d s].
    + rewrite decide_False; [by apply IH|]. intros [-> _]%Forall_cons. done.
    + rewrite decide_False; [apply IH; rewrite last_cons in Hl; by destruct (last (d :: s))|]. intros [_ H]%Forall_cons. apply Forall_app in H as [H _].
      destruct (last (d :: s)) as [e|] eqn:E; [|by apply last_None in E]. rewrite last_cons, E in Hl. apply last_Some_elem_of in E.
      rewrite Forall_forall in H. specialize (H e E). by subst.
Qed.
Lemma trail_split s : ∃ pre, s = pre ++ replicate (trail s) "<"%char ∧ last pre ≠ Some "<"%char.
Proof.
  induction s as [|c s (pre&E&Hl)]; [by exists []|]. cbn [trail]. case_decide as H.
  - exists []. split; [|done]. cbn [app]. clear E Hl. remember (c :: s) as u eqn:Eu. clear Eu. induction H as [|d u -> _ IH]; [done|]. simpl. by rewrite <- IH.
  - exists (c :: pre). split; [simpl; by rewrite <- E|]. rewrite last_cons. destruct (last pre) eqn:El; [congruence|]. intros [= ->].
    apply last_None in El as ->. destruct H. rewrite E. constructor; [done|]. by apply Forall_replicate.
Qed.
Lemma scan_none n : ∀ html ctx, length html ≤ n → scan n html ctx = None ↔ Nat.odd (trail html) = true.
Proof.
  induction n as [|n IH]; intros html ctx Hn; (destruct html as [|c rest]; [done|]); cbn [length] in Hn; [lia|]. cbn [scan].
  assert (Hc : ∀ (x : chr) o, cons x <$> o = None ↔ o = None) by (by intros x [?|]).
  destruct (decide (c = "<"%char)) as [->|Hlt].
  - destruct (parse_tag rest [] false) as [[[ty t] r]|] eqn:E.
    + apply C66_parse in E as (body&->&_). rewrite app_length in Hn. simpl in Hn.
      assert (trail ("<"%char :: body ++ ">"%char :: r) = trail r) as -> by (by apply (trail_app ("<"%char :: body))). destruct ty; apply IH; lia.
    + destruct rest as [|d rest]; [done|]. cbn [length] in Hn. rewrite Hc, IH by lia.
      destruct (decide (d = "<"%char)) as [->|Hd]; [by rewrite trail_two|]. by rewrite <- (trail_app ["<"%char] rest d Hd).
  - rewrite Hc, IH by lia. by rewrite <- (trail_app [] rest c Hlt).
Qed.
Theorem C66_past_end html : scan_html html = None ↔
  ∃ pre k, html = pre ++ replicate (2 * k + 1) "<"%char ∧ last pre ≠ Some "<"%char.
Proof.
  unfold scan_html. rewrite scan_none by done. split.
  - intros [k Hk]%Nat.odd_spec. destruct (trail_split html) as (pre&E&Hl). exists pre, k. by rewrite <- Hk.
  - intros (pre&k&->&Hl). rewrite trail_replicate by done. apply Nat.odd_spec. by exists k.
Qed.

(** ** Writing and reading again *)
(** the tags that html.cpp finds in a text, and those it can write so as to find
    them again *)
Definition tag_read (t : tag) : Prop :=
  t.1 ≠ [] ∧ Forall (λ c, visible c) t.1 ∧ head t.1 ≠ Some "/"%char ∧ lower <$> t.1 = t.1 ∧
  match t.2 with [] => True | c :: _ => visible c end ∧ tag_end (inside t).
Definition tag_kept (t : tag) : Prop := tag_read t ∧ dquote ∉ t.1.
Definition declaration (t : tag) : Prop := head t.1 = Some "!"%char.
(** no declaration ends unless a tag around it ends *)
Definition closable (from to : list tag) : Prop :=
  ∀ pre x f t, from = pre ++ x :: f → to = pre ++ t → head t ≠ Some x → ¬ declaration x.
Definition kept (cs : list chr) : Prop := ∀ x, x ∈ cs → x.1 ≠ "<"%char ∧ Forall tag_kept x.2.

Notation S html ctx := (scan (length html) html ctx).
Lemma scan_fuel n : ∀ m html ctx, length html ≤ n → length html ≤ m → scan n html ctx = scan m html ctx.
Proof.
  induction n as [|n IH]; intros m html ctx Hn Hm; (destruct html as [|c rest]; [by destruct m|]); cbn [length] in *; [lia|].
  destruct m as [|m]; [lia|]. cbn [scan]. destruct (decide (c = "<"%char)) as [->|Hlt]; [|by rewrite (IH m) by lia].
  destruct (parse_tag rest [] false) as [[[ty t] r]|] eqn:E.
  - apply C66_parse in E as (body&->&_). rewrite app_length in *. simpl in *. destruct ty; apply IH; lia.
  - destruct rest as [|d rest]; [done|]. cbn [length] in *. by rewrite (IH m) by lia.
Qed.
Lemma scan_char c r ctx : c ≠ "<"%char → S (c :: r) ctx = cons (c, ctx) <$> S r ctx.
Proof. intros Hc. cbn [length scan]. by rewrite decide_False. Qed.
Lemma scan_tag cs ty t r ctx : parse_tag cs [] false = Some (ty, t, r) →
  S ("<"%char :: cs) ctx = S r (match ty with opening => ctx ++ [t] | closing => pop t.1 ctx end).
Proof.
  intros E. cbn [length scan]. rewrite decide_True by done. rewrite E. apply C66_parse in E as (body&->&_). rewrite app_length. simpl.
  destruct ty; apply scan_fuel; lia.
Qed.
Lemma scan_opening t r ctx : tag_read t → S (print_opening t ++ r) ctx = S r (ctx ++ [t]).
Proof.
  destruct t as [name props]. intros (Hne&Hv&Hsl&Hlo&Hp&He). cbn [fst snd] in *. unfold print_opening. rewrite <- app_comm_cons, <- app_assoc. cbn [app].
  apply (scan_tag _ opening). apply C66_parse. exists (inside (name, props)). split; [done|]. split; [done|].
  destruct name as [|c w]; [done|]. rewrite <- Hlo at 2.
  pose proof (Sh_open [] c w (match props with [] => [] | _ => [" "%char] end) props) as Hs.
  assert (inside (c :: w, props) = [] ++ (c :: w) ++ match props with [] => [] | _ => [" "%char] end ++ props) as -> by (by destruct props).
  apply Hs; [constructor|done|intros ->; done|]. destruct props; split; try done; by repeat constructor.
Qed.
Lemma quotes_none w : Forall (λ c, c ≠ dquote) w → quotes w = 0.
Proof. induction 1 as [|c w Hc _ IH]; [done|]. rewrite quotes_cons, decide_False by done. apply IH. Qed.
Lemma name_end w : Forall (λ c, c ≠ dquote) w → ∀ s, tag_end (w ++ s) → qrun false w = Some false.
Proof.
  intros Hw s He. apply tag_end_run in He. rewrite qrun_app in He. destruct (qrun false w) as [q|] eqn:E; [|done]. f_equal.
  apply qrun_spec in E as [<- _]. rewrite xorb_false_l. by rewrite quotes_none.
Qed.
Lemma scan_closing t r ctx : tag_kept t → S (print_closing t ++ r) ctx = S r (if decide (head t.1 = Some "!"%char) then ctx else pop t.1 ctx).
Proof.
  destruct t as [name props]. intros [(Hne&Hv&Hsl&Hlo&Hp&He) Hq]. cbn [fst snd] in *. unfold print_closing. cbn [fst]. case_decide as Hb; [done|].
  rewrite <- !app_comm_cons, <- app_assoc. cbn [app].
  apply (scan_tag _ closing (name, [])). apply C66_parse. exists ("/"%char :: name). split; [done|]. split.
  - apply tag_end_run. simpl. unfold qnext. rewrite decide_False by done. eapply name_end; [|exact He]. apply Forall_forall. intros c Hc ->. done.
  - rewrite <- Hlo at 2. pose proof (Sh_close [] name [] []) as Hs. rewrite !app_nil_r in Hs. apply Hs; [constructor|done|]. by split.
Qed.

Lemma list_find_app_none {A} (Q : A → Prop) `{∀ x, Decision (Q x)} l k : Forall (λ x, ¬ Q x) l → list_find Q (l ++ k) = prod_map (Nat.add (length l)) id <$> list_find Q k.
Proof.
  induction 1 as [|x l Hx _ IH]; [simpl; by destruct (list_find Q k) as [[]|]|]. simpl. rewrite decide_False by done. rewrite IH.
  destruct (list_find Q k) as [[]|]; done.
Qed.
Lemma pop_innermost pre (x : tag) f : Forall (λ t : tag, t.1 ≠ x.1) f → pop x.1 (pre ++ x :: f) = pre.
Proof.
  intros Hf. unfold pop. rewrite reverse_app, reverse_cons, <- app_assoc. rewrite list_find_app_none by (by apply Forall_reverse).
  simpl. rewrite decide_True by done. simpl. rewrite reverse_length, Nat.add_0_r, app_length. simpl.
  replace (length pre + Datatypes.S (length f) - Datatypes.S (length f)) with (length pre) by lia. apply take_app.
Qed.
Lemma scan_closings f : ∀ pre bang r, Forall tag_kept f → Forall declaration bang → match f with [] => bang = [] | x :: _ => ¬ declaration x end →
  S (concat (map print_closing (reverse f)) ++ r) (pre ++ f ++ bang) = S r pre.
Proof.
  induction f as [|x f IH] using rev_ind; intros pre bang r Hk Hb Hh; [subst bang; by rewrite !app_nil_r|].
  rewrite reverse_snoc. cbn [map concat]. rewrite <- app_assoc. apply Forall_app in Hk as [Hf [Hx _]%Forall_cons].
  rewrite scan_closing by done. rewrite <- app_assoc. cbn [app]. case_decide as Hd.
  - destruct f as [|y f]; [done|]. apply (IH pre (x :: bang)); [done|by constructor|done].
  - rewrite app_assoc, pop_innermost.
    + destruct f as [|y f]; [simpl; by rewrite app_nil_r|]. specialize (IH pre [] r). rewrite app_nil_r in IH. by apply IH.
    + eapply Forall_impl; [exact Hb|]. intros t Ht E. destruct Hd. by rewrite <- E.
Qed.
Lemma scan_openings ts : ∀ ctx r, Forall tag_kept ts → S (concat (map print_opening ts) ++ r) ctx = S r (ctx ++ ts).
Proof.
  induction ts as [|t ts IH]; intros ctx r Hk; [by rewrite app_nil_r|]. apply Forall_cons in Hk as [[Ht _] Hk]. cbn [map concat]. rewrite <- app_assoc.
  rewrite scan_opening by done. rewrite IH by done. by rewrite <- app_assoc.
Qed.
Lemma unshare_spec from to f t : unshare from to = (f, t) → ∃ pre, from = pre ++ f ∧ to = pre ++ t ∧ match f with [] => True | x :: _ => head t ≠ Some x end.
Proof.
  revert to. induction from as [|x from IH]; intros to; cbn [unshare]; [intros [= <- <-]; by exists []|].
  destruct to as [|y to]; [intros [= <- <-]; by exists []|]. case_decide as E; [subst y|intros [= <- <-]; exists []; split_and!; [done|done|by intros [= ->]]].
  intros (pre&->&->&Hh)%IH. by exists (x :: pre).
Qed.
Lemma scan_change from to r : Forall tag_kept from → Forall tag_kept to → closable from to → S (change from to ++ r) from = S r to.
Proof.
  intros Hf Ht Hc. unfold change. destruct (unshare from to) as [f t] eqn:E. apply unshare_spec in E as (pre&->&->&Hh).
  apply Forall_app in Hf as [_ Hf], Ht as [_ Ht]. rewrite <- app_assoc.
  pose proof (scan_closings f pre [] (concat (map print_opening t) ++ r)) as Hs. rewrite app_nil_r in Hs. rewrite Hs; [by apply scan_openings|done|constructor|]. destruct f as [|x f]; [done|]. by eapply Hc.
Qed.
Lemma scan_end f : ∀ ctx, Forall tag_kept f → S (concat (map print_closing f)) ctx = Some [].
Proof.
  induction f as [|x f IH]; intros ctx Hk; [done|]. apply Forall_cons in Hk as [Hx Hk]. cbn [map concat]. rewrite scan_closing by done. by apply IH.
Qed.
Lemma scan_produce cs : ∀ ctx, kept cs → Forall tag_kept ctx → (∀ x, head cs = Some x → closable ctx x.2) →
  (∀ i x y, cs !! i = Some x → cs !! Datatypes.S i = Some y → closable x.2 y.2) → S (produce cs ctx) ctx = Some cs.
Proof.
  induction cs as [|[c ctx'] cs IH]; intros ctx Hk Hctx Hh Hl; cbn [produce].
  - unfold change. destruct (unshare ctx []) as [f t] eqn:E. apply unshare_spec in E as (pre&->&Et&_). symmetry in Et. apply app_eq_nil in Et as [-> ->].
    simpl. rewrite app_nil_r. apply scan_end. by apply Forall_reverse.
  - destruct (Hk (c, ctx')) as [Hc Ht]; [by left|]. simpl in Hc, Ht.
    assert (Hrest : S (c :: produce cs ctx') ctx' = Some ((c, ctx') :: cs)).
    { rewrite scan_char by done. rewrite IH; [done|intros x Hx; apply Hk; by right|done| |intros i x y; apply (Hl (Datatypes.S i))].
      intros x Hx. apply (Hl 0 (c, ctx') x); [done|]. by destruct cs. }
    case_decide as E; [subst ctx'; done|]. rewrite scan_change; [done|done|done|]. by apply (Hh (c, ctx')).
Qed.
Theorem C66_roundtrip cs : kept cs → (∀ i x y, cs !! i = Some x → cs !! Datatypes.S i = Some y → closable x.2 y.2) →
  scan_html (produce_html cs) = Some cs.
Proof.
  intros Hk Hl. apply scan_produce; [done|constructor| |done]. intros x _ pre y f t E. by destruct pre.
Qed.

(** what is read from a text *)
Lemma scan_all (Q : tag → Prop) n : (∀ cs t rest, parse_tag cs [] false = Some (opening, t, rest) → Q t) → ∀ html ctx cs,
  Forall Q ctx → scan n html ctx = Some cs → ∀ x, x ∈ cs → Forall Q x.2.
Proof.
  intros HQ. assert (Hc : ∀ (c : ascii) ctx o cs, Forall Q ctx → (∀ cs, o = Some cs → ∀ x : chr, x ∈ cs → Forall Q x.2) → cons (c, ctx) <$> o = Some cs → ∀ x : chr, x ∈ cs → Forall Q x.2).
  { intros c ctx [cs'|] cs Hctx Ho; [|done]. intros [= <-] x [->|Hx]%elem_of_cons; [done|by eapply Ho]. }
  induction n as [|n IH]; intros html ctx cs Hctx; (destruct html as [|c rest]; [intros [= <-] x Hx; by apply elem_of_nil in Hx|]); cbn [scan]; [done|].
  case_decide; [|eapply Hc; [done|]; intros; by eapply IH].
  destruct (parse_tag rest [] false) as [[[[] t] r]|] eqn:E.
  - apply IH. apply Forall_app. split; [done|]. constructor; [by eapply HQ|done].
  - apply IH. unfold pop. destruct (list_find _ _) as [[i y]|]; [by apply Forall_take|done].
  - destruct rest as [|d rest]; [done|]. eapply Hc; [done|]. intros; by eapply IH.
Qed.
Lemma lower_facts c : lower (lower c) = lower c ∧ blank (lower c) = blank c ∧ (lower c = "/"%char ↔ c = "/"%char) ∧ (lower c = dquote ↔ c = dquote) ∧ (lower c = ">"%char ↔ c = ">"%char).
Proof. destruct c as [[] [] [] [] [] [] [] []]; vm_compute; split_and!; try reflexivity; done. Qed.
Lemma qrun_lower s : ∀ q, qrun q (lower <$> s) = qrun q s.
Proof.
  induction s as [|c s IH]; intros q; [done|]. cbn [fmap list_fmap qrun]. destruct (lower_facts c) as (_&_&_&Hq&Hg). change (list_fmap _ _ lower s) with (lower <$> s). rewrite IH.
  assert (qnext q (lower c) = qnext q c) as -> by (unfold qnext; by rewrite (decide_ext _ _ _ _ Hq)).
  by rewrite (bool_decide_ext _ _ Hg).
Qed.
Lemma qrun_blank s q : Forall (λ c, blank c) s → qrun q s = Some q.
Proof.
  induction 1 as [|c s Hc _ IH]; [done|]. cbn [qrun]. unfold blank in Hc. apply bool_decide_unpack in Hc.
  rewrite bool_decide_false by (by destruct Hc as [->|[->|[->| ->]]]). simpl. unfold qnext. rewrite decide_False by (by destruct Hc as [->|[->|[->| ->]]]). done.
Qed.
Lemma parsed_read cs t rest : parse_tag cs [] false = Some (opening, t, rest) → tag_read t.
Proof.
  intros (body&_&He&Hs)%C66_parse. inversion Hs as [ws c w sep props Hws Hw Hc [Hsep Hp]|]; subst. unfold tag_read. cbn [fst snd]. split; [done|]. split; [|split; [|split; [|split]]].
  - apply Forall_fmap. eapply Forall_impl; [exact Hw|]. intros d Hd. simpl. unfold visible. by rewrite (proj1 (proj2 (lower_facts d))).
  - destruct (lower_facts c) as (_&_&Hf&_). intros E. apply Hc, Hf. by injection E.
  - rewrite <- list_fmap_compose. apply list_fmap_ext. intros i d _. apply lower_facts.
  - destruct props; [done|]. by destruct Hp.
  - apply tag_end_run. apply tag_end_run in He. rewrite !qrun_app, (qrun_blank ws), qrun_app in He by done.
    unfold inside. cbn [fst snd]. rewrite qrun_app, qrun_lower. destruct (qrun false (c :: w)) as [q|]; [|done]. rewrite qrun_app, (qrun_blank sep) in He by done.
    destruct props as [|d props]; [done|]. rewrite <- He. change (" "%char :: d :: props) with ([" "%char] ++ d :: props). by rewrite qrun_app, (qrun_blank [" "%char]) by (by repeat constructor).
Qed.
Theorem C66_read html cs x t : scan_html html = Some cs → x ∈ cs → t ∈ x.2 → tag_read t.
Proof.
  intros Hs Hx Ht. assert (Hf : Forall tag_read x.2) by (eapply (scan_all tag_read _ parsed_read html []); [constructor|exact Hs|done]).
  rewrite Forall_forall in Hf. by apply Hf.
Qed.
(** any rearrangement of what was read *)
Definition plain_tags (cs : list chr) : Prop := ∀ x, x ∈ cs → x.1 ≠ "<"%char ∧ ∀ t, t ∈ x.2 → dquote ∉ t.1 ∧ ¬ declaration t.
Theorem C66_rearrange html cs cs' : scan_html html = Some cs → (∀ x, x ∈ cs' → x ∈ cs) → plain_tags cs' → scan_html (produce_html cs') = Some cs'.
Proof.
  intros Hs Hsub Hp. apply C66_roundtrip.
  - intros x Hx. destruct (Hp x Hx) as [Hc Ht]. split; [done|]. apply Forall_forall. intros t Htx. split; [by eapply C66_read; [|by apply Hsub|]|by apply Ht].
  - intros i x y Hx _ pre z f t E _ _. apply elem_of_list_lookup_2 in Hx. apply (Hp x Hx). rewrite E. apply elem_of_app. right. by left.
Qed.
Lemma shuffle_sub cs x : x ∈ shuffle cs → x ∈ cs.
Proof.
  assert (Ht : ∀ n (l : list chr), x ∈ take n l → x ∈ l) by (intros n l H; rewrite <- (take_drop n l), elem_of_app; by left).
  assert (Hd : ∀ n (l : list chr), x ∈ drop n l → x ∈ l) by (intros n l H; rewrite <- (take_drop n l), elem_of_app; by right).
  unfold shuffle. rewrite !elem_of_app, elem_of_reverse. intros [H|[H|H]]; eauto.
Qed.
Theorem C66_main html cs : scan_html html = Some cs → plain_tags cs → scan_html (produce_html (shuffle cs)) = Some (shuffle cs) ∧ shuffle cs ≡ₚ cs.
Proof.
  intros Hs Hp. split; [eapply C66_rearrange; [done|apply shuffle_sub|]; intros x Hx; by apply Hp, shuffle_sub|].
  unfold shuffle. set (q := length cs / 4). rewrite reverse_Permutation.
  rewrite <- (take_drop q cs) at 4. f_equiv. rewrite <- (take_drop (3 * q - q) (drop q cs)) at 2. f_equiv. rewrite drop_drop. by replace (q + (3 * q - q)) with (3 * q) by lia.
Qed.

(** ** Where it does not work *)
Import Strings.String.
Definition text (s : string) : word := list_ascii_of_string s.
(** a declaration that ends: "a" is read again as part of it *)
Theorem C66_declaration_refuted : ∃ cs, kept cs ∧ scan_html (produce_html cs) ≠ Some cs ∧
  scan_html (text "<!x>b</!x>a") = Some cs.
Proof.
  exists [("b"%char, [(text "!x", [])]); ("a"%char, [])]. split; [|split; [vm_compute; done|vm_compute; reflexivity]].
  intros x [->|[->|[]%elem_of_nil]%elem_of_cons]%elem_of_cons; (split; [done|]); [|constructor].
  constructor; [|constructor]. split; [|vm_compute; intros H; repeat apply elem_of_cons in H as [H|H]; try done; by apply elem_of_nil in H].
  unfold tag_read. split; [done|]. split; [by repeat constructor|]. split; [done|]. split; [done|]. split; [done|]. by apply tag_end_run.
Qed.
(** a quote in a name: the closing tag is not one *)
Theorem C66_quote_refuted : ∃ html cs, scan_html html = Some cs ∧ (∀ x t, x ∈ cs → t ∈ x.2 → x.1 ≠ "<"%char ∧ ¬ declaration t) ∧
  scan_html (produce_html cs) ≠ Some cs.
Proof.
  set (q := String dquote EmptyString).
  exists (text ("<a" ++ q ++ " " ++ q ++ ">b</c></a" ++ q ++ "   " ++ q ++ ">d")). eexists. split; [vm_compute; reflexivity|]. split; [|vm_compute; done].
  intros x t Hx Ht. repeat apply elem_of_cons in Hx as [->|Hx]; [..|by apply elem_of_nil in Hx]; simpl in Ht;
    repeat apply elem_of_cons in Ht as [->|Ht]; try (by apply elem_of_nil in Ht); by split.
Qed.
(** a '<' that starts no tag is lost *)
Theorem C66_less_refuted : ∃ html cs, scan_html html = Some cs ∧ (∀ x, x ∈ cs → x.2 = []) ∧ scan_html (produce_html cs) ≠ Some cs ∧ List.length cs + 1 = List.length html.
Proof.
  exists (text "1 <<2"), [("1"%char, []); (" "%char, []); ("<"%char, []); ("2"%char, [])]. split; [vm_compute; reflexivity|]. split; [|split; [vm_compute; done|done]].
  intros x Hx. repeat apply elem_of_cons in Hx as [->|Hx]; try done. by apply elem_of_nil in Hx.
Qed.
Example C66_end : scan_html (text "a<") = None ∧ scan_html (text "a<<") = Some [("a"%char, []); ("<"%char, [])] ∧ scan_html (text "a<<<") = None.
Proof. vm_compute. split_and!; reflexivity. Qed.
(** ** Example *)
Definition page : word := text "x<UL><li CLASS=y>p<b>q</b></ul>r<  A href >s".
Example C66_page :
  scan_html page = Some [("x"%char, []); ("p"%char, [(text "ul", []); (text "li", text "CLASS=y")]); ("q"%char, [(text "ul", []); (text "li", text "CLASS=y"); (text "b", [])]);
    ("r"%char, []); ("s"%char, [(text "a", text "href ")])] ∧
  match scan_html page with
  | Some cs => plain_tags cs ∧ produce_html cs = text "x<ul><li CLASS=y>p<b>q</b></li></ul>r<a href >s</a>" ∧
      produce_html (shuffle cs) = text "x<ul><li CLASS=y><b>q</b>p</li></ul>r<a href >s</a>"
  | None => False
  end.
Proof.
  split; [vm_compute; reflexivity|]. destruct (scan_html page) as [cs|] eqn:E; [|vm_compute in E; done]. vm_compute in E. injection E as <-.
  split; [|vm_compute; split; reflexivity]. intros x Hx. repeat apply elem_of_cons in Hx as [->|Hx]; try (by apply elem_of_nil in Hx); (split; [done|]); intros t Ht; simpl in Ht;
    repeat apply elem_of_cons in Ht as [->|Ht]; try (by apply elem_of_nil in Ht); (split; [|done]); simpl; intros H; repeat apply elem_of_cons in H as [H|H]; try done; by apply elem_of_nil in H.
Qed.

Print Assumptions C66_parse.
Print Assumptions C66_past_end.
Print Assumptions C66_roundtrip.
Print Assumptions C66_read.
Print Assumptions C66_rearrange.
Print Assumptions C66_main.
Print Assumptions C66_declaration_refuted.
Print Assumptions C66_quote_refuted.
Print Assumptions C66_less_refuted.
