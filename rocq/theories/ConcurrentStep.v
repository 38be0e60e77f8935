(** Every step of the machine of [Concurrent.v] keeps the invariant and none is undefined. *)
From Verif Require Export ConcurrentInv.

Section Step.
  Context {K A R V : Type}.
  Context (P : Core.policy K A R V) (eqv : K → K → bool) (good : R → Prop).
  Context (Heq : equivalence eqv) (HP : policy_ok eqv good P).
  Notation state := (state (K:=K) (A:=A) (R:=R)).
  Notation instr := (instr (K:=K) (A:=A) (R:=R)).
  Notation Inv := (Inv P eqv good).
  Notation cnt := (cnt P).
  Notation inv_move := (inv_move P eqv good).
  Notation inv_add := (inv_add P eqv good Heq).
  Notation inv_sub := (inv_sub P eqv good Heq).
  Notation inv_leave := (inv_leave P eqv good Heq).
  Notation inv_upd := (inv_upd P eqv good Heq).
  Implicit Types (s : state) (a b h : addr) (t : tid) (i : instr) (rest : list instr).

  Definition okres (r : res (K:=K) (A:=A) (R:=R)) : Prop := match r with Next s' => Inv s' | Stuck => True | Undef => False end.

  Ltac atdec := unfold at_; repeat case_decide; subst; try congruence; try lia.
  Ltac gcn := apply gc_fine_no; [done|intros []].
  Ltac one := intros ? ->%elem_of_list_singleton.

  Lemma releases t ks x (s' : state) (j : instr) : j = IAbort x ∨ (∃ h k, j = IBind x h k ∧ fits P eqv s' h k) → t ≠ gc_tid →
    ∀ i, i ∈ map IRelease ks ++ [j] → iok P eqv s' i ∧ gc_fine t i.
  Proof.
    intros Hj Ht i [(b&->&_)%elem_of_list_fmap| ->%elem_of_list_singleton]%elem_of_app.
    - split; [done|apply gc_fine_release].
    - destruct Hj as [->|(h&k&->&Hf)]; (split; [done|gcn]).
  Qed.

  Lemma exec_inv s t i rest thr : Inv s → stack s t = i :: rest → okres (exec P eqv s t i rest thr).
  Proof.
    intros HI Hst. assert (Htop : i ∈ stack s t) by (rewrite Hst; left).
    pose proof (i_ok _ _ _ _ HI t i Htop) as Hok. pose proof (not_gc P eqv good s t i HI Htop) as Hng.
    assert (Hst1 : stack s t = [i] ++ rest) by done.
    destruct i as [x p [|y ys] got|x p r|x h p ks k|x h ks k|x h ks k|h|x h k|x|x h|x y hx hy|x y hx hy|x y hx hy|h [|j]|h|h|h];
      unfold okres; cbn [exec]; try (assert (Ht : t ≠ gc_tid) by (apply Hng; simpl; tauto)).
    - destruct (p_make P p got) as [r|] eqn:Em.
      + destruct (po_make _ _ _ HP _ _ _ Em) as [_ Hk].
        eapply (inv_move s _ t _ [_] rest HI Hst1); try done; [sums; rewrite ?Hk; done|].
        one. split; [by exists got|gcn].
      + eapply (inv_move s _ t _ (map IRelease got ++ [IAbort x]) rest HI Hst1); try done; try (by sums).
        * by rewrite <- app_assoc.
        * apply (releases t got x); auto.
    - destruct (live s y) as [h|] eqn:El; [|done]. apply live_vars in El. pose proof (cnt_var P s y h El) as Hc.
      destruct (present P eqv good s h HI Hc) as (n&Hn&_). unfold add_ref. rewrite Hn.
      eapply (inv_add s _ t _ [IMake x p ys (got ++ [h])] rest h n HI Hst1 Hn); try done; auto.
      + sums. unfold vsum. simpl. unfold at_. case_decide; lia.
      + one. split; [done|gcn].
    - destruct thr.
      + eapply (inv_move s _ t _ (map IRelease (p_kids P r) ++ [IAbort x]) rest HI Hst1); try done; try (by sums).
        * by rewrite <- app_assoc.
        * apply (releases t _ x); auto.
      + destruct (find P eqv s (p_key P r)) as [h|] eqn:Ef; [|by eapply (inv_new P eqv good Heq HP)].
        apply find_some in Ef as (n&Hn&Hk). rewrite Hn. destruct n as [r' c [o|]]; [done|].
        eapply (inv_upd s _ t _ [IVisit x h p (p_kids P r) (p_key P r)] rest h _ (Node r' c (Some t)) HI Hst1 Hn); try done.
        * apply (todo_same s); [|done]. intros [=]; done.
        * by left.
        * right. split; [by left|by right].
        * intros a. rewrite !lsum_cons, !lsum_nil. unfold vsum. simpl. case_decide; lia.
        * by left.
        * intros a. rewrite !lsum_cons, !lsum_nil. simpl. unfold at_, has. simpl. rewrite (decide_True (P:=Some t = Some t)) by done. case_decide; lia.
        * one. split; [|gcn]. simpl in *. destruct Hok as [ks0 Hm]. split; [by exists ks0, r|].
          exists (Node r' c (Some t)). simpl. rewrite lookup_insert. done.
    - destruct Hok as [(ks0&r0&Hm&<-) (n&Hn&Hk)]. rewrite Hn.
      destruct (accessed P eqv good s t _ h HI Htop) as (n0&Hn0&Hown); [simpl; rewrite at_eq; lia|]. simplify_eq.
      destruct (p_val P (n_rep n)) as [v|] eqn:Ev.
      + eapply (inv_move s _ t _ [_] rest HI Hst1); try done.
        one. split; [|gcn]. split; exists n; [done|]. rewrite Ev. eauto.
      + destruct thr.
        * eapply (inv_leave s _ t _ (map IRelease ks ++ [IAbort x]) rest h n HI Hst Hn Hown); try done; try (by sums).
          -- by rewrite <- app_assoc.
          -- apply (releases t _ x); auto.
        * destruct (i_made _ _ _ _ HI h n Hn Ev) as (p'&ks'&Hm').
          destruct (po_build _ _ _ HP _ _ _ _ _ _ Hm Hm' Hk Ev) as (Hsv&Hgd&Hke&Hkd).
          eapply (inv_upd s _ t _ [IAddRef x h ks (p_key P r0)] rest h n (with_rep n (p_build P p (n_rep n))) HI Hst1 Hn); try done.
          -- by apply (todo_same s).
          -- by right.
          -- by left.
          -- intros a. rewrite !lsum_cons, !lsum_nil. unfold vsum. simpl. case_decide; lia.
          -- by left.
          -- one. split; [|gcn]. split; eexists; simpl; rewrite lookup_insert; (split; [done|]); simpl; [|done].
             exact (eqv_trans _ Heq _ _ _ Hke Hk).
    - destruct Hok as [(n&Hn&Hk) (n1&Hn1&Hv)]. simplify_eq. unfold add_ref. rewrite Hn.
      destruct (accessed P eqv good s t _ h HI Htop) as (n0&Hn0&Hown); [simpl; rewrite at_eq; lia|]. simplify_eq.
      eapply (inv_add s _ t _ [ILeave x h ks k] rest h n HI Hst1 Hn); try done; auto.
      + sums. unfold vsum. simpl. lia.
      + one. split; [|gcn]. eexists. simpl. rewrite lookup_insert. done.
    - destruct Hok as (n&Hn&Hk). rewrite Hn.
      destruct (accessed P eqv good s t _ h HI Htop) as (n0&Hn0&Hown); [simpl; rewrite at_eq; lia|]. simplify_eq.
      eapply (inv_leave s _ t _ (map IRelease ks ++ [IBind x h k]) rest h n HI Hst Hn Hown); try done; try (by sums).
      + by rewrite <- app_assoc.
      + apply (releases t _ x); [|done]. right. exists h, k. split; [done|]. eexists. simpl. rewrite lookup_insert. done.
    - assert (Hc : 0 < cnt s h) by (eapply cnt_own; [exact Htop|simpl; rewrite at_eq; lia]).
      destruct (present P eqv good s h HI Hc) as (n&Hn&_). unfold release. rewrite Hn.
      eapply (inv_sub s _ t _ [] rest h n HI Hst1); try done; try (by intros ? ?%elem_of_nil); sums.
    - assert (Hx : vars s !! x = Some None).
      { pose proof (tsum_elem (making x) s t _ Htop) as Hx. simpl in Hx. rewrite at_eq, (i_vars _ _ _ _ HI x) in Hx.
        destruct (vars s !! x) as [[|]|]; [lia|done|lia]. }
      eapply (inv_move s _ t _ [] rest HI Hst1); try done.
      + intros a. pose proof (vsum_upd a x _ (Some h) s Hx) as Hv. unfold vsum in *. simpl in *. sums.
      + by intros ? ?%elem_of_nil.
      + intros z. sums. unfold at_. case_decide as E; [subst; rewrite Hx, lookup_insert; done|]. by rewrite lookup_insert_ne.
    - assert (Hx : vars s !! x = Some None).
      { pose proof (tsum_elem (making x) s t _ Htop) as Hx. simpl in Hx. rewrite at_eq, (i_vars _ _ _ _ HI x) in Hx.
        destruct (vars s !! x) as [[|]|]; [lia|done|lia]. }
      eapply (inv_move s _ t _ [] rest HI Hst1); try done.
      + intros a. pose proof (vsum_del a x _ s Hx) as Hv. unfold vsum in *. simpl in *. sums.
      + by intros ? ?%elem_of_nil.
      + intros z. sums. unfold at_. case_decide as E; [subst; rewrite Hx, lookup_delete; done|]. by rewrite lookup_delete_ne.
    - case_decide as El; [|done]. apply live_vars in El. pose proof (cnt_var P s x h El) as Hc.
      destruct (present P eqv good s h HI Hc) as (n&Hn&[v Hv]). rewrite Hn, Hv.
      eapply (inv_move s _ t _ [] rest HI Hst1); try done. by intros ? ?%elem_of_nil.
    - assert (Hc : 0 < cnt s hy) by (eapply cnt_own; [exact Htop|simpl; rewrite at_eq; lia]).
      destruct (present P eqv good s hy HI Hc) as (n&Hn&_). unfold add_ref. rewrite Hn.
      eapply (inv_add s _ t _ [IRelease hx; ISwap2 x y hx hy] rest hy n HI Hst1 Hn); try done; auto.
      + sums. unfold vsum. simpl. lia.
      + intros i [-> | ->%elem_of_list_singleton]%elem_of_cons; (split; [done|]); [apply gc_fine_release|gcn].
    - assert (Hc : 0 < cnt s hx) by (eapply cnt_own; [exact Htop|simpl; rewrite at_eq; lia]).
      destruct (present P eqv good s hx HI Hc) as (n&Hn&_). unfold add_ref. rewrite Hn.
      eapply (inv_add s _ t _ [IRelease hy; IRelease hx; ISwap3 x y hx hy] rest hx n HI Hst1 Hn); try done; auto.
      + sums. unfold vsum. simpl. lia.
      + intros i [-> | [-> | ->%elem_of_list_singleton]%elem_of_cons]%elem_of_cons; (split; [done|]); try apply gc_fine_release; gcn.
    - assert (Hxy : vars s !! x = Some None ∧ vars s !! y = Some None ∧ x ≠ y).
      { pose proof (tsum_elem (making x) s t _ Htop) as Hx. pose proof (tsum_elem (making y) s t _ Htop) as Hy.
        simpl in Hx, Hy. rewrite at_eq, (i_vars _ _ _ _ HI x) in Hx. rewrite at_eq, (i_vars _ _ _ _ HI y) in Hy.
        destruct (vars s !! x) as [[|]|]; [lia| |lia]. destruct (vars s !! y) as [[|]|]; [lia| |lia]. split_and!; try done.
        intros ->. rewrite at_eq in Hx. lia. }
      destruct Hxy as (Hx&Hy&Hne).
      eapply (inv_move s _ t _ [] rest HI Hst1); try done.
      + intros a. pose proof (vsum_upd a x _ (Some hy) s Hx) as Hv.
        assert (Hy' : vars (set_vars (<[x:=Some hy]> (vars s)) s) !! y = Some None) by (simpl; by rewrite lookup_insert_ne).
        pose proof (vsum_upd a y _ (Some hx) _ Hy') as Hv'. unfold vsum in *. simpl in *. sums.
      + by intros ? ?%elem_of_nil.
      + intros z. sums. unfold at_. destruct (decide (z = y)) as [->|Hzy].
        * rewrite decide_False by done. rewrite Hy, lookup_insert. done.
        * rewrite lookup_insert_ne by done. case_decide as E; [subst; rewrite Hx, lookup_insert; done|]. by rewrite lookup_insert_ne.
    - assert (Hc : 0 < cnt s h) by (eapply cnt_own; [exact Htop|simpl; rewrite at_eq; lia]).
      destruct (present P eqv good s h HI Hc) as (n&Hn&_). unfold release. rewrite Hn.
      eapply (inv_sub s _ t _ [] rest h n HI Hst1); try done; try (by intros ? ?%elem_of_nil); sums.
    - assert (Hc : 0 < cnt s h) by (eapply cnt_own; [exact Htop|simpl; rewrite at_eq; lia]).
      destruct (present P eqv good s h HI Hc) as (n&Hn&_). unfold add_ref. rewrite Hn.
      eapply (inv_add s _ t _ [IRelease h; IDup h j] rest h n HI Hst1 Hn); try done; auto.
      + sums. unfold vsum. simpl. lia.
      + intros i [-> | ->%elem_of_list_singleton]%elem_of_cons; (split; [done|]); [apply gc_fine_release|gcn].
    - destruct (accessed P eqv good s t _ h HI Htop) as (n&Hn&Hown); [simpl; rewrite at_eq; lia|]. rewrite Hn.
      destruct (i_gc _ _ _ _ HI t _ Htop) as [Hg _]. specialize (Hg I). destruct (i_cnt _ _ _ _ HI h n Hn) as [Hc _].
      eapply (inv_move s _ t _ [_] rest HI Hst1); try done; try (intros; by case_decide).
      one. case_decide as E; (split; [|split; [done|by left]]); simpl; [lia|done].
    - destruct (accessed P eqv good s t _ h HI Htop) as (n&Hn&Hown); [simpl; rewrite at_eq; lia|]. rewrite Hn.
      by eapply (inv_erase P eqv good).
    - destruct (accessed P eqv good s t _ h HI Htop) as (n&Hn&Hown); [simpl; rewrite at_eq; lia|]. rewrite Hn.
      eapply (inv_leave s _ t _ [] rest h n HI Hst Hn Hown); try done. by intros ? ?%elem_of_nil.
  Qed.

  Lemma start_inv s t o : Inv s → t ≠ gc_tid → stack s t = [] → okres (start s t o).
  Proof.
    intros HI Ht Hst. assert (Hst1 : stack s t = [] ++ []) by done.
    destruct o as [x p ys|x y|x y|x y|x|x]; unfold okres; cbn [start].
    - destruct (vars s !! x) eqn:Ex; [done|].
      eapply (inv_move s _ t [] [_] [] HI Hst1); try done.
      + intros a. pose proof (vsum_new a x None s Ex). unfold vsum in *. simpl in *. sums.
      + one. split; [done|gcn].
      + intros z. sums. unfold at_. case_decide as E; [subst; by rewrite lookup_insert, Ex|]. by rewrite lookup_insert_ne.
    - destruct (vars s !! x) eqn:Ex; [done|]. destruct (live s y) as [h|] eqn:El; [|done]. apply live_vars in El.
      pose proof (cnt_var P s y h El) as Hc. destruct (present P eqv good s h HI Hc) as (n&Hn&_). unfold add_ref. rewrite Hn.
      eapply (inv_add s _ t [] [] [] h n HI Hst1 Hn); try done; auto.
      + right; left. by eexists _, _.
      + intros a. pose proof (vsum_new a x (Some h) s Ex). unfold vsum in *. simpl in *. sums.
      + by intros ? ?%elem_of_nil.
      + intros z. sums. destruct (decide (z = x)) as [->|E]; [by rewrite lookup_insert, Ex|]. by rewrite lookup_insert_ne.
    - destruct (live s x) as [hx|] eqn:Ex; [|done]. destruct (live s y) as [h|] eqn:El; [|done]. apply live_vars in El, Ex.
      pose proof (cnt_var P s y h El) as Hc. destruct (present P eqv good s h HI Hc) as (n&Hn&_). unfold add_ref. rewrite Hn.
      eapply (inv_add s _ t [] [IRelease hx] [] h n HI Hst1 Hn); try done; auto.
      + right; left. by eexists _, _.
      + intros a. pose proof (vsum_upd a x _ (Some h) s Ex). unfold vsum in *. simpl in *. sums.
      + one. split; [done|apply gc_fine_release].
      + intros z. sums. destruct (decide (z = x)) as [->|E]; [by rewrite lookup_insert, Ex|]. by rewrite lookup_insert_ne.
    - destruct (live s x) as [hx|] eqn:Ex; [|done]. destruct (live s y) as [hy|] eqn:Ey; [|done]. apply live_vars in Ey, Ex.
      pose proof (cnt_var P s x hx Ex) as Hc. destruct (present P eqv good s hx HI Hc) as (n&Hn&_). unfold add_ref. rewrite Hn.
      case_decide as Exy.
      + subst y. eapply (inv_add s _ t [] [IDup hx 2] [] hx n HI Hst1 Hn); try done; auto.
        * right; left. by exists (vars s), (EvSwap x x).
        * intros a. unfold vsum in *. simpl in *. sums.
        * one. split; [done|gcn].
      + eapply (inv_add s _ t [] [ISwap1 x y hx hy] [] hx n HI Hst1 Hn); try done; auto.
        * right; right. by eexists.
        * intros a. pose proof (vsum_upd a x _ None s Ex) as Hv.
          assert (Hy' : vars (set_vars (<[x:=None]> (vars s)) s) !! y = Some (Some hy)) by (simpl; by rewrite lookup_insert_ne).
          pose proof (vsum_upd a y _ None _ Hy') as Hv'. unfold vsum in *. simpl in *. sums.
        * one. split; [done|gcn].
        * intros z. sums. unfold at_. destruct (decide (z = y)) as [->|Hzy].
          -- rewrite decide_False by done. rewrite Ey, lookup_insert. done.
          -- rewrite lookup_insert_ne by done. case_decide as E; [subst; rewrite Ex, lookup_insert; done|]. by rewrite lookup_insert_ne.
    - destruct (live s x) as [h|] eqn:Ex; [|done]. apply live_vars in Ex.
      eapply (inv_move s _ t [] [_] [] HI Hst1); try done.
      + intros a. pose proof (vsum_del a x _ s Ex). unfold vsum in *. simpl in *. sums.
      + one. split; [done|apply gc_fine_release].
      + intros z. sums. destruct (decide (z = x)) as [->|E]; [by rewrite lookup_delete, Ex|]. by rewrite lookup_delete_ne.
    - destruct (live s x) as [h|] eqn:Ex; [|done]. apply live_vars in Ex.
      pose proof (cnt_var P s x h Ex) as Hc. destruct (present P eqv good s h HI Hc) as (n&Hn&_). unfold add_ref. rewrite Hn.
      eapply (inv_add s _ t [] [IRelease h; IRead x h] [] h n HI Hst1 Hn); try done; auto.
      + sums. unfold vsum. simpl. lia.
      + intros i [-> | ->%elem_of_list_singleton]%elem_of_cons; (split; [done|]); [apply gc_fine_release|gcn].
  Qed.

  (** only [todo] changes *)
  Lemma inv_todo s d : Inv s →
    match d with None => stack s gc_tid = [] | Some X => X ⊆ dom (ents s) ∧ ∀ a n, ents s !! a = Some n → n_own n = Some gc_tid → a ∉ X end →
    Inv (set_todo d s).
  Proof.
    intros HI Hd.
    assert (Hok : ∀ i, iok P eqv s i → iok P eqv (set_todo d s) i) by (intros []; exact id).
    split; try (by apply HI); done.
  Qed.

  Lemma step_inv s l : Inv s → okres (step P eqv s l).
  Proof.
    intros HI. destruct l as [t o|t thr| |h|]; cbn [step].
    - case_decide; [done|]. destruct (stack s t) eqn:E; [|done]. by apply start_inv.
    - destruct (stack s t) eqn:E; [done|]. by apply exec_inv.
    - destruct (todo s) eqn:E; [done|]. apply inv_todo; [done|]. split; [done|]. intros a n Hn Ho _.
      pose proof (i_todo _ _ _ _ HI) as Htd. rewrite E in Htd. pose proof (i_acc _ _ _ _ HI a gc_tid) as Hac.
      rewrite Hn, Htd, Ho, lsum_nil in Hac. unfold has in Hac. rewrite decide_True in Hac by done. done.
    - destruct (todo s) as [X|] eqn:Et; [|done]. destruct (stack s gc_tid) eqn:Es; [|done].
      destruct (ents s !! h) as [[r c [o|]]|] eqn:En; [done| |done].
      eapply (inv_upd s _ gc_tid [] [ITest h] [] h _ (Node r c (Some gc_tid)) HI Es En); try done.
      + simpl. exists X. split_and!; [done|intros b Hb; by apply elem_of_difference in Hb as [? _]|].
        intros _. right. intros [_ []]%elem_of_difference. by apply elem_of_singleton.
      + by left.
      + right. split; [by left|by right].
      + intros a. rewrite !lsum_cons, !lsum_nil. unfold vsum. simpl. case_decide; lia.
      + by left.
      + intros a. rewrite !lsum_cons, !lsum_nil. simpl. unfold at_, has. simpl. case_decide; lia.
      + one. split; [done|]. split; [done|by left].
    - destruct (todo s) as [X|] eqn:Et; [|done]. destruct (stack s gc_tid) eqn:Es; [|done]. case_decide; [|done]. by apply inv_todo.
  Qed.

  Lemma init_inv : Inv init.
  Proof.
    assert (Hs : ∀ t, stack (@init K A R) t = []) by (intros t; unfold stack; simpl; by rewrite lookup_empty).
    split; simpl; try (intros *; by rewrite lookup_empty); try done.
    - intros t i. rewrite Hs. by intros ?%elem_of_nil.
    - intros t i. rewrite Hs. by intros ?%elem_of_nil.
  Qed.

  Lemma run_inv ls s : Inv s → okres (run P eqv s ls).
  Proof.
    revert s. induction ls as [|l ls IH]; intros s HI; cbn [run]; [done|].
    pose proof (step_inv s l HI) as Hs. destruct (step P eqv s l); simpl in Hs; [by apply IH|by apply IH|done].
  Qed.
End Step.
