(** A factory on its own, under any history of insertions and erasures. *)
From Verif Require Export Factory.

Section Hist.
  Context {K : Type} (FS : factory K).

  (** [fmem]: the stored entries (address -> key). *)
  Record fstate := FState { fcont : f_cont FS; fmem : gmap addr K }.
  Definition finit : fstate := FState (f_empty FS) ∅.

  (** [FInsert k a]: insert an entry with key [k]; the allocator would use
      address [a].  [FErase a]: erase the entry at [a]. *)
  Inductive fop := FInsert (k : K) (a : addr) | FErase (a : addr).

  (** [None]: undefined behaviour or allocator contract broken. *)
  Definition finsert (s : fstate) (k : K) (a : addr) : option (fstate * addr) :=
    match f_find FS (fcont s) (λ b, fmem s !! b) k with
    | Found h => Some (FState (f_hit FS (fcont s) h) (fmem s), h)
    | NotFound =>
        let m := <[a:=k]> (fmem s) in
        Some (FState (f_link FS (fcont s) (λ b, m !! b) a) m, a)
    | BadRead => None
    end.
  Definition ferase (s : fstate) (a : addr) : fstate :=
    FState (f_unlink FS (fcont s) (λ b, fmem s !! b) a) (delete a (fmem s)).

  Definition flegal (s : fstate) (o : fop) : Prop :=
    match o with FInsert _ a => fmem s !! a = None | FErase a => is_Some (fmem s !! a) end.
  Definition fstep (s : fstate) (o : fop) : option fstate :=
    match o with
    | FInsert k a => match finsert s k a with Some (s', _) => Some s' | None => None end
    | FErase a => Some (ferase s a)
    end.

  Inductive freach : fstate → Prop :=
  | fr_init : freach finit
  | fr_step s o s' : freach s → flegal s o → fstep s o = Some s' → freach s'.

  Context (eqv : K → K → bool) (Heq : equivalence eqv) (HF : factory_spec eqv FS).

  Definition finv (s : fstate) : Prop :=
    fi_inv HF (fcont s) (λ b, fmem s !! b) (dom (fmem s)) ∧
    ∀ a b ka kb, fmem s !! a = Some ka → fmem s !! b = Some kb → eqv ka kb = true → a = b.

  Lemma finsert_spec s k a : finv s → fmem s !! a = None →
    ∃ s' h, finsert s k a = Some (s', h) ∧ finv s' ∧
      ((∃ k', fmem s !! h = Some k' ∧ eqv k' k = true ∧ fmem s' = fmem s) ∨
       (h = a ∧ (∀ b kb, fmem s !! b = Some kb → eqv kb k = false) ∧ fmem s' = <[a:=k]> (fmem s))).
  Proof.
    intros [Hi Hu] Ha. unfold finsert. destruct (f_find FS (fcont s) _ k) as [h| |] eqn:Hf.
    - destruct (fi_found _ _ HF _ _ _ _ _ Hi Hf) as (Hh&k'&?&?). eexists _, h. split; [done|]. split; [|left; by exists k'].
      split; [|exact Hu]. by apply (fi_hit _ _ HF).
    - assert (Hno : ∀ b kb, fmem s !! b = Some kb → eqv kb k = false).
      { intros b kb Hb. eapply (fi_notfound _ _ HF); [done|done|by apply elem_of_dom|done]. }
      eexists _, a. split; [done|]. split; [|right; done]. split; simpl.
      + rewrite dom_insert_L. eapply (fi_link _ _ HF _ _ _ _ k).
        * eapply (fi_view _ _ HF); [exact Hi|]. intros b kb Hb Hkb. exists kb. split; [|by apply eqv_refl].
          rewrite lookup_insert_ne; [done|]. intros ->. congruence.
        * by apply not_elem_of_dom.
        * by rewrite lookup_insert.
        * intros b kb Hb. rewrite lookup_insert_ne; [by apply Hno|]. intros ->.
          apply elem_of_dom in Hb as [??]. congruence.
      + intros b c kb kc. destruct (decide (b = a)) as [->|Hb], (decide (c = a)) as [->|Hc];
          rewrite ?lookup_insert, ?lookup_insert_ne by done; intros; simplify_eq; [done| | |by eapply Hu].
        * apply (eqv_sym _ Heq) in H1. by rewrite (Hno _ _ H0) in H1.
        * by rewrite (Hno _ _ H) in H1.
    - by apply (fi_goodread _ _ HF _ _ _ k) in Hi.
  Qed.

  Lemma ferase_inv s a : finv s → is_Some (fmem s !! a) → finv (ferase s a).
  Proof.
    intros [Hi Hu] Ha. split; simpl.
    - rewrite dom_delete_L. eapply (fi_view _ _ HF); [apply (fi_unlink _ _ HF); [exact Hi|by apply elem_of_dom]|].
      intros b k [_ Hb]%elem_of_difference Hk. exists k. split; [|by apply eqv_refl].
      rewrite lookup_delete_ne; [done|]. set_solver.
    - intros b c kb kc [_ ?]%lookup_delete_Some [_ ?]%lookup_delete_Some. by apply Hu.
  Qed.

  Lemma freach_inv s : freach s → finv s.
  Proof.
    induction 1 as [|s o s' Hr IH Hl Hs].
    - split; simpl; [rewrite dom_empty_L; apply (fi_empty _ _ HF)|]. intros ????. by rewrite lookup_empty.
    - destruct o as [k a|a]; simpl in Hl, Hs.
      + destruct (finsert_spec s k a IH Hl) as (s1&h&E&Hi&_). rewrite E in Hs. by simplify_eq.
      + simplify_eq. by apply ferase_inv.
  Qed.

  Lemma factory_unique_set s : freach s →
    (∀ a b ka kb, fmem s !! a = Some ka → fmem s !! b = Some kb → eqv ka kb = true → a = b) ∧
    (∀ k a, fmem s !! a = None →
       ∃ s' h, finsert s k a = Some (s', h) ∧
         (∀ b kb, fmem s !! b = Some kb → eqv kb k = true → h = b ∧ fmem s' = fmem s) ∧
         ((∀ b kb, fmem s !! b = Some kb → eqv kb k = false) → h = a ∧ fmem s' = <[a:=k]> (fmem s))) ∧
    (∀ a, is_Some (fmem s !! a) → fmem (ferase s a) = delete a (fmem s)).
  Proof.
    intros Hr. pose proof (freach_inv _ Hr) as Hi. split_and!; [apply Hi| |done].
    intros k a Ha. destruct (finsert_spec s k a Hi Ha) as (s'&h&E&_&Hc). exists s', h. split; [done|].
    destruct Hc as [(k'&Hk'&Hkk&Hm)|(->&Hno&Hm)].
    - split.
      + intros b kb Hb Hbk. split; [|done]. destruct Hi as [_ Hu]. eapply Hu; [done..|].
        eapply (eqv_trans _ Heq); [done|]. by apply (eqv_sym _ Heq).
      + intros Hno. specialize (Hno _ _ Hk'). congruence.
    - split; [|done]. intros b kb Hb Hbk. rewrite (Hno _ _ Hb) in Hbk. done.
  Qed.
End Hist.
Global Arguments FInsert {_} _ _.
Global Arguments FErase {_} _.
Global Arguments fcont {_ _} _.
Global Arguments fmem {_ _} _.
