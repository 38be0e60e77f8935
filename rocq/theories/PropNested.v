(** C53: value constructors that create flyweights, with concurrent_factory. *)
From Verif Require Import Nested.
From Coq Require Import Wellfounded.

(** ** Vocabulary *)
Section spec.
  Context {K V : Type} `{Countable K} (body : K → prog K V).
  (** what a program returns if every key is given the value that its
      constructor computes, without any sharing *)
  Inductive evals : prog K V → option V → Prop :=
  | ev_ret v : evals (PRet v) (Some v)
  | ev_throw : evals PThrow None
  | ev_new k f r r' : evals (body k) r → evals (f r) r' → evals (PNew k f) r'.
  (** the keys that a program may ask for *)
  Inductive asks : prog K V → K → Prop :=
  | asks_here k f : asks (PNew k f) k
  | asks_later k f r k' : evals (body k) r → asks (f r) k' → asks (PNew k f) k'.
  Definition calls (k k' : K) : Prop := asks (body k) k'.
  Definition is_gc (l : label K V) : bool := match l with LGc _ => true | _ => false end.

  Lemma evals_det p r r' : evals p r → evals p r' → r = r'.
  Proof.
    intros Hp. revert r'. induction Hp as [v| |k f r1 r2 H1 IH1 H2 IH2]; intros r' Hr; inversion Hr; subst; [done..|].
    apply IH2. by rewrite (IH1 _ ltac:(eassumption)).
  Qed.
End spec.

Section proofs.
  Context {K V : Type} `{Countable K} (body : K → prog K V) (conf : K → K → bool) (lck : bool).
  Notation step := (step body conf lck).
  Notation run := (run body conf lck).
  Definition reachable (s : state K V) : Prop := ∃ ls, s = run init ls.

  (** ** Invariant *)
  Definition frame_ok (pr : prog K V) (x : option K * prog K V) : Prop :=
    (∀ r, evals body x.2 r → evals body (match x.1 with Some k => body k | None => pr end) r) ∧
    match x.1 with Some k => ∀ k', asks body x.2 k' → calls body k k' | None => True end.
  Fixpoint stack_ok (pr : prog K V) (fs : list (option K * prog K V)) : Prop :=
    match fs with
    | [] => False
    | x :: fs =>
        frame_ok pr x ∧
        match fs with
        | [] => x.1 = None
        | y :: _ => (∃ k f, x.1 = Some k ∧ y.2 = PNew k f) ∧ stack_ok pr fs
        end
    end.
  Record inv (s : state K V) : Prop := Inv {
    i_prg : ∀ t fs, thr s !! t = Some fs → ∃ p, prg s !! t = Some p ∧ stack_ok p fs;
    i_busy : ∀ k t, busy s !! k = Some t ↔ ∃ fs, thr s !! t = Some fs ∧ Some k ∈ fs.*1;
    i_nodup : ∀ t fs, thr s !! t = Some fs → NoDup (fs.*1);
    i_open : ∀ k t, busy s !! k = Some t → ents s !! k = Some None;
    i_val : ∀ k v, ents s !! k = Some (Some v) → evals body (body k) (Some v);
    i_fin : ∀ p r, (p, r) ∈ fin s → evals body p r;
    i_lock : lck = true → ∀ t u fs gs, thr s !! t = Some fs → thr s !! u = Some gs → inside fs = true → inside gs = true → t = u;
  }.
  Lemma frame_next pr o k f r : frame_ok pr (o, PNew k f) → evals body (body k) r → frame_ok pr (o, f r).
  Proof.
    intros [He Ha] Hr. split; simpl in *.
    - intros r' Hr'. apply He. by econstructor.
    - destruct o; [|done]. intros k' Hk. apply Ha. by econstructor.
  Qed.
  Lemma frame_body pr k : frame_ok pr (Some k, body k).
  Proof. split; simpl; [done|]. intros k' Hk. exact Hk. Qed.
  Lemma stack_next pr o k f r fs : stack_ok pr ((o, PNew k f) :: fs) → evals body (body k) r → stack_ok pr ((o, f r) :: fs).
  Proof.
    intros [Hf Hs] Hr. split; [by apply (frame_next pr o k f)|]. destruct fs as [|y fs]; [done|].
    destruct Hs as [(k' & f' & Ho & Hy) Hs]. split; [by exists k', f'|done].
  Qed.
  Lemma stack_push pr o k f fs : stack_ok pr ((o, PNew k f) :: fs) → stack_ok pr ((Some k, body k) :: (o, PNew k f) :: fs).
  Proof. intros Hs. split; [apply frame_body|]. split; [by exists k, f|done]. Qed.
  Lemma stack_pop pr k p fs r : stack_ok pr ((Some k, p) :: fs) → evals body p r → stack_ok pr (resume r fs) ∧ (resume r fs).*1 = fs.*1.
  Proof.
    intros [[He _] Hs] Hr. destruct fs as [|[o q] fs]; [done|]. destruct Hs as [(k' & f & [= <-] & Hq) Hs]. simpl in Hq. subst q.
    simpl. split; [|done]. eapply stack_next; [done|]. by apply He.
  Qed.
  Lemma inside_length (fs : list (option K * prog K V)) : inside fs = true ↔ 2 ≤ length (fs.*1).
  Proof. destruct fs as [|? [|??]]; simpl; split; (done || lia). Qed.
  Lemma waits_false k (s : state K V) : waits conf k s = false ↔ ∀ k' t, busy s !! k' = Some t → conf k k' = false.
  Proof.
    unfold waits. rewrite bool_decide_eq_false, map_not_Exists. split; intros Hw k' t Hk; specialize (Hw k' t Hk); simpl in *; [by destruct (conf k k')|congruence].
  Qed.
  Lemma excluded_false t (s : state K V) : excluded lck t s = false ↔ (lck = true → ∀ u gs, thr s !! u = Some gs → u ≠ t → inside gs = false).
  Proof.
    unfold excluded. rewrite andb_false_iff. split.
    - intros [->|He] Hl u gs Hu Hne; [done|]. rewrite bool_decide_eq_false in He. destruct (inside gs) eqn:E; [|done].
      exfalso. apply He. by exists u, gs.
    - intros He. destruct lck; [right|by left]. rewrite bool_decide_eq_false. intros (u & gs & Hu & Hne & Hi). by rewrite (He eq_refl u gs) in Hi.
  Qed.
  Context (conf_refl : ∀ k, conf k k = true).

  Lemma inv_init : inv init.
  Proof.
    split; simpl; try (intros *; rewrite ?lookup_empty; done).
    - intros k t. rewrite lookup_empty. split; [done|]. intros (fs & Hf & _). by rewrite lookup_empty in Hf.
    - intros p r Hp. by apply elem_of_nil in Hp.
  Qed.

  Lemma fresh_key s t fs k : inv s → thr s !! t = Some fs → waits conf k s = false → Some k ∉ fs.*1.
  Proof.
    intros I Ht Hw Hk. rewrite waits_false in Hw. assert (busy s !! k = Some t) as Hb by (apply (i_busy _ I); eauto).
    specialize (Hw _ _ Hb). by rewrite conf_refl in Hw.
  Qed.
  Lemma busy_one s k t u fs gs : inv s → thr s !! t = Some fs → thr s !! u = Some gs → Some k ∈ fs.*1 → Some k ∈ gs.*1 → t = u.
  Proof.
    intros I Ht Hu Hk Hk'. assert (busy s !! k = Some t) as H1 by (apply (i_busy _ I); eauto).
    assert (busy s !! k = Some u) as H2 by (apply (i_busy _ I); eauto). congruence.
  Qed.
  (** a thread replaces its stack, keeping the keys *)
  Lemma same_keys s t fs gs pr : inv s → thr s !! t = Some fs → prg s !! t = Some pr → stack_ok pr gs → gs.*1 = fs.*1 → inv (set_thr t gs s).
  Proof.
    intros I Ht Hp Hs Hk. destruct I as [Ip Ib In Io Iv If Il]. split; simpl; auto.
    - intros u hs Hu. destruct (decide (u = t)) as [->|Hne]; [|rewrite lookup_insert_ne in Hu by done; by eauto].
      rewrite lookup_insert in Hu. simplify_eq. eauto.
    - intros k u. rewrite Ib. destruct (decide (u = t)) as [->|Hne]; [|by rewrite lookup_insert_ne].
      rewrite lookup_insert, Ht. split; intros (x & [= <-] & Hx); eexists; (split; [done|]); [by rewrite Hk|by rewrite <- Hk].
    - intros u hs Hu. destruct (decide (u = t)) as [->|Hne]; [|rewrite lookup_insert_ne in Hu by done; by eauto].
      rewrite lookup_insert in Hu. simplify_eq. rewrite Hk. eauto.
    - intros Hl u w hs js Hu Hw Hi Hj.
      assert (∃ hs', thr s !! u = Some hs' ∧ inside hs' = true) as (hs' & ? & ?).
      { destruct (decide (u = t)) as [->|Hne]; [|rewrite lookup_insert_ne in Hu by done; by eauto].
        rewrite lookup_insert in Hu. simplify_eq. exists fs. split; [done|]. apply inside_length. rewrite <- Hk. by apply inside_length. }
      assert (∃ js', thr s !! w = Some js' ∧ inside js' = true) as (js' & ? & ?).
      { destruct (decide (w = t)) as [->|Hne]; [|rewrite lookup_insert_ne in Hw by done; by eauto].
        rewrite lookup_insert in Hw. simplify_eq. exists fs. split; [done|]. apply inside_length. rewrite <- Hk. by apply inside_length. }
      by eapply Il.
  Qed.
  (** a call returns *)
  Lemma pop_inv s t k p fs E b : inv s → thr s !! t = Some ((Some k, p) :: fs) →
    (∃ r, evals body p r ∧ b = resume r fs) →
    (∀ k', k' ≠ k → E !! k' = ents s !! k') → (∀ v, E !! k = Some (Some v) → evals body (body k) (Some v)) → ∀ bl,
    inv (State E (delete k (busy s)) (<[t:=b]> (thr s)) bl (fin s) (prg s)).
  Proof.
    intros I Ht (r & Hr & ->) HE Hv bl. destruct (i_prg _ I _ _ Ht) as (pr & Hp & Hs). destruct (stack_pop _ _ _ _ _ Hs Hr) as [Hs' Hk].
    pose proof (i_nodup _ I _ _ Ht) as Hnd. simpl in Hnd. apply NoDup_cons in Hnd as [Hn Hnd].
    pose proof (λ k t u fs gs, busy_one s k t u fs gs I) as Hone. destruct I as [Ip Ib In Io Iv If Il]. split; simpl; auto.
    - intros u hs Hu. destruct (decide (u = t)) as [->|Hne]; [|rewrite lookup_insert_ne in Hu by done; by eauto].
      rewrite lookup_insert in Hu. simplify_eq. eauto.
    - intros k' u. rewrite lookup_delete_Some, Ib. destruct (decide (u = t)) as [->|Hne].
      + rewrite lookup_insert, Ht. split.
        * intros (Hkk & x & [= <-] & Hx). simpl in Hx. apply elem_of_cons in Hx as [[= ->]|Hx]; [done|]. eexists. split; [done|]. by rewrite Hk.
        * intros (x & [= <-] & Hx). rewrite Hk in Hx. split; [by intros ->|]. eexists. split; [done|]. simpl. by apply elem_of_list_further.
      + rewrite lookup_insert_ne by done. split; [by intros [_ ?]|]. intros (gs & Hu & Hg). split; [|by eauto]. intros ->.
        apply Hne. eapply (Hone k' u t gs ((Some k', p) :: fs)); try done. simpl. apply elem_of_list_here.
    - intros u hs Hu. destruct (decide (u = t)) as [->|Hne]; [|rewrite lookup_insert_ne in Hu by done; by eauto].
      rewrite lookup_insert in Hu. simplify_eq. by rewrite Hk.
    - intros k' u Hu. apply lookup_delete_Some in Hu as [Hne Hu]. rewrite HE by done. by eapply Io.
    - intros k' v Hv'. destruct (decide (k' = k)) as [->|Hne]; [by apply Hv|]. rewrite HE in Hv' by done. by apply Iv.
    - intros Hl u w hs js Hu Hw Hi Hj.
      assert (inside (resume r fs) = true → inside ((Some k, p) :: fs) = true) as Hin.
      { rewrite !inside_length, Hk. cbn [fmap list_fmap length]. intros H2. by apply le_S. }
      assert (∃ hs', thr s !! u = Some hs' ∧ inside hs' = true) as (hs' & ? & ?).
      { destruct (decide (u = t)) as [->|Hne]; [|rewrite lookup_insert_ne in Hu by done; by eauto].
        rewrite lookup_insert in Hu. simplify_eq. eauto. }
      assert (∃ js', thr s !! w = Some js' ∧ inside js' = true) as (js' & ? & ?).
      { destruct (decide (w = t)) as [->|Hne]; [|rewrite lookup_insert_ne in Hw by done; by eauto].
        rewrite lookup_insert in Hw. simplify_eq. eauto. }
      by eapply Il.
  Qed.

  Lemma push_inv s t o k f fs : inv s → thr s !! t = Some ((o, PNew k f) :: fs) → excluded lck t s = false → waits conf k s = false →
    inv (State (<[k:=None]> (ents s)) (<[k:=t]> (busy s)) (<[t:=(Some k, body k) :: (o, PNew k f) :: fs]> (thr s)) (built s) (fin s) (prg s)).
  Proof.
    intros I Ht He Hw. destruct (i_prg _ I _ _ Ht) as (pr & Hp & Hs). pose proof (fresh_key _ _ _ _ I Ht Hw) as Hfr.
    pose proof (i_nodup _ I _ _ Ht) as Hnd. rewrite excluded_false in He.
    assert (busy s !! k = None) as Hbk.
    { destruct (busy s !! k) as [u|] eqn:E; [|done]. rewrite waits_false in Hw. specialize (Hw _ _ E). by rewrite conf_refl in Hw. }
    destruct I as [Ip Ib In Io Iv If Il]. split; simpl; auto.
    - intros u hs Hu. destruct (decide (u = t)) as [->|Hne]; [|rewrite lookup_insert_ne in Hu by done; by eauto].
      rewrite lookup_insert in Hu. simplify_eq. exists pr. split; [done|]. by apply stack_push.
    - intros k' u. destruct (decide (k' = k)) as [->|Hk].
      + rewrite lookup_insert. split.
        * intros [= <-]. eexists. rewrite lookup_insert. split; [done|]. apply elem_of_list_here.
        * intros (gs & Hu & Hg). destruct (decide (u = t)) as [->|Hne]; [done|]. rewrite lookup_insert_ne in Hu by done.
          assert (busy s !! k = Some u) by (apply Ib; eauto). congruence.
      + rewrite lookup_insert_ne by done. rewrite Ib. destruct (decide (u = t)) as [->|Hne]; [|by rewrite lookup_insert_ne].
        rewrite lookup_insert, Ht. split; intros (x & [= <-] & Hx); eexists; (split; [done|]).
        * simpl. by apply elem_of_list_further.
        * simpl in Hx. apply elem_of_cons in Hx as [[= ->]|Hx]; done.
    - intros u hs Hu. destruct (decide (u = t)) as [->|Hne]; [|rewrite lookup_insert_ne in Hu by done; by eauto].
      rewrite lookup_insert in Hu. simplify_eq. simpl. apply NoDup_cons. by split.
    - intros k' u. destruct (decide (k' = k)) as [->|Hk]; [by rewrite !lookup_insert|]. rewrite !lookup_insert_ne by done. apply Io.
    - intros k' v. destruct (decide (k' = k)) as [->|Hk]; [by rewrite lookup_insert|]. rewrite lookup_insert_ne by done. apply Iv.
    - intros Hl u w hs js Hu Hw' Hi Hj. destruct (decide (u = t)) as [->|Hu'], (decide (w = t)) as [->|Hw2]; [done|..].
      + rewrite lookup_insert_ne in Hw' by done. by rewrite (He Hl w js) in Hj.
      + rewrite lookup_insert_ne in Hu by done. by rewrite (He Hl u hs) in Hi.
      + rewrite lookup_insert_ne in Hu, Hw' by done. by eapply Il.
  Qed.
  Lemma end_inv s t p fs r : inv s → thr s !! t = Some ((None, p) :: fs) → evals body p r →
    inv (finish t r s).
  Proof.
    intros I Ht Hr. unfold finish. destruct (i_prg _ I _ _ Ht) as (pr & Hp & Hs). rewrite Hp. destruct Hs as [[He _] Hs].
    assert (fs = []) as -> by (destruct fs as [|y fs]; [done|]; by destruct Hs as [(? & ? & ? & _) _]).
    destruct I as [Ip Ib In Io Iv If Il]. split; simpl; auto.
    - intros u hs [Hne Hu]%lookup_delete_Some. rewrite lookup_delete_ne by done. by apply Ip.
    - intros k u. rewrite Ib. destruct (decide (u = t)) as [->|Hne]; [|by rewrite lookup_delete_ne].
      rewrite lookup_delete, Ht. split; [|by intros (? & ? & _)]. intros (x & [= <-] & Hx). simpl in Hx. by apply elem_of_list_singleton in Hx.
    - intros u hs [Hne Hu]%lookup_delete_Some. by eapply In.
    - intros q r' [[= -> ->]|Hq]%elem_of_cons; [by apply He|by apply If].
    - intros Hl u w hs js [_ Hu]%lookup_delete_Some [_ Hw]%lookup_delete_Some. by eapply Il.
  Qed.
  Lemma step_inv s l s' : inv s → step s l = Next s' → inv s'.
  Proof.
    intros I. destruct l as [t p|t|k]; simpl.
    - destruct (thr s !! t) eqn:Ht; [done|]. intros [= <-]. destruct I as [Ip Ib In Io Iv If Il]. split; simpl; auto.
      + intros u hs Hu. destruct (decide (u = t)) as [->|Hne]; [|rewrite lookup_insert_ne in Hu by done; rewrite lookup_insert_ne by done; by eauto].
        rewrite lookup_insert in Hu. simplify_eq. exists p. rewrite lookup_insert. split; [done|]. split; [|done]. split; simpl; [by intros r|done].
      + intros k u. rewrite Ib. destruct (decide (u = t)) as [->|Hne]; [|by rewrite lookup_insert_ne].
        rewrite lookup_insert, Ht. split; [by intros (? & ? & _)|]. intros (x & [= <-] & Hx). simpl in Hx. by apply elem_of_list_singleton in Hx.
      + intros u hs Hu. destruct (decide (u = t)) as [->|Hne]; [|rewrite lookup_insert_ne in Hu by done; by eauto].
        rewrite lookup_insert in Hu. simplify_eq. apply NoDup_singleton.
      + intros Hl u w hs js Hu Hw Hi Hj. destruct (decide (u = t)) as [->|Hu']; [rewrite lookup_insert in Hu; by simplify_eq|].
        destruct (decide (w = t)) as [->|Hw']; [rewrite lookup_insert in Hw; by simplify_eq|].
        rewrite lookup_insert_ne in Hu, Hw by done. by eapply Il.
    - unfold step_thread. destruct (thr s !! t) as [[|[o p] fs]|] eqn:Ht; [done| |done].
      destruct (i_prg _ I _ _ Ht) as (pr & Hp & Hs).
      destruct p as [v| |k f].
      + destruct o as [k|]; intros [= <-].
        * eapply pop_inv; [done|done|exists (Some v); split; [constructor|done]|..].
          -- intros k' Hk. by rewrite lookup_insert_ne.
          -- intros v'. rewrite lookup_insert. intros [= <-]. apply Hs. constructor.
        * eapply end_inv; [done|done|constructor].
      + destruct o as [k|]; intros [= <-].
        * eapply pop_inv; [done|done|exists None; split; [constructor|done]|done|]. intros v Hv. by apply (i_val _ I).
        * eapply end_inv; [done|done|constructor].
      + destruct (excluded lck t s) eqn:He; cbn [orb]; [done|]. destruct (waits conf k s) eqn:Hw; [done|].
        destruct (ents s !! k) as [[v|]|] eqn:Ek; intros [= <-]; [|by apply push_inv..].
        eapply same_keys; try done. eapply stack_next; [done|]. by apply (i_val _ I).
    - destruct (waits conf k s) eqn:Hw; intros [= <-]. rewrite waits_false in Hw. destruct I as [Ip Ib In Io Iv If Il]. split; simpl; auto.
      + intros k' u Hu. assert (k ≠ k') by (intros <-; specialize (Hw _ _ Hu); by rewrite conf_refl in Hw).
        rewrite lookup_delete_ne by done. by eapply Io.
      + intros k' v [_ Hv]%lookup_delete_Some. by apply Iv.
  Qed.
  Lemma run_inv ls : ∀ s, inv s → inv (run s ls).
  Proof.
    induction ls as [|l ls IH]; intros s I; simpl; [done|]. apply IH. destruct (step s l) as [s'|] eqn:E; [by eapply step_inv|done].
  Qed.
  Lemma reachable_inv s : reachable s → inv s.
  Proof. intros [ls ->]. apply run_inv, inv_init. Qed.

  (** ** Theorems *)
  (** Values are those of the constructors, whatever is shared, collected or
      interleaved. *)
  Theorem C53_values s : reachable s →
    (∀ k v, ents s !! k = Some (Some v) → evals body (body k) (Some v)) ∧ (∀ p r, (p, r) ∈ fin s → evals body p r).
  Proof. intros I%reachable_inv. split; apply I. Qed.

  Lemma stack_calls pr x fs k f : stack_ok pr (x :: fs) → x.2 = PNew k f → ∀ k', Some k' ∈ (x :: fs).*1 → tc (calls body) k' k.
  Proof.
    revert x k f. induction fs as [|y fs IH]; intros x k f [[_ Ha] Hs] Hx k' Hk.
    - simpl in Hk, Hs. apply elem_of_list_singleton in Hk. congruence.
    - destruct Hs as [(k1 & f1 & Hk1 & Hy) Hs]. assert (calls body k1 k) as Hc by (rewrite Hk1, Hx in Ha; apply Ha; constructor).
      simpl in Hk. apply elem_of_cons in Hk as [Hk|Hk].
      + rewrite Hk1 in Hk. simplify_eq. by apply tc_once.
      + eapply tc_r; [|exact Hc]. by eapply IH.
  Qed.
  Lemma ask_calls s t o k f fs u k' : inv s → thr s !! t = Some ((o, PNew k f) :: fs) → busy s !! k' = Some u → u = t → tc (calls body) k' k.
  Proof.
    intros I Ht Hb ->. apply (i_busy _ I) in Hb as (gs & Hg & Hk). simplify_eq. destruct (i_prg _ I _ _ Ht) as (pr & _ & Hs).
    by eapply stack_calls.
  Qed.
  Definition ready (t : tid) (s : state K V) : Prop := ∃ s', step s (LStep t) = Next s'.
  Lemma not_new_ready s t o p fs : thr s !! t = Some ((o, p) :: fs) → (∀ k f, p ≠ PNew k f) → ready t s.
  Proof.
    intros Ht Hn. unfold ready. simpl. unfold step_thread. rewrite Ht. destruct p as [v| |k f]; [destruct o; eauto..|by edestruct Hn].
  Qed.
  Lemma new_ready s t o k f fs : thr s !! t = Some ((o, PNew k f) :: fs) → excluded lck t s = false → waits conf k s = false → ready t s.
  Proof.
    intros Ht He Hw. unfold ready. simpl. unfold step_thread. rewrite Ht, He, Hw. simpl. destruct (ents s !! k) as [[v|]|]; eauto.
  Qed.

  (** With simple_locking it is enough that no constructor asks, directly or
      through others, for a key whose element collides with its own. *)
  Theorem C53_progress_locked s : lck = true → (∀ k k', tc (calls body) k' k → conf k k' = false) → reachable s → thr s ≠ ∅ → ∃ t, ready t s.
  Proof.
    intros Hl Hc I%reachable_inv Hne.
    assert (∃ t fs, thr s !! t = Some fs ∧ ∀ u gs, thr s !! u = Some gs → u ≠ t → inside gs = false) as (t & fs & Ht & Ho).
    { destruct (decide (map_Exists (λ _ gs, inside gs = true) (thr s))) as [(t & fs & Ht & Hi)|Hno].
      - exists t, fs. split; [done|]. intros u gs Hu Hut. destruct (inside gs) eqn:E; [|done]. exfalso. apply Hut.
        by eapply (i_lock _ I Hl).
      - destruct (map_choose _ Hne) as (t & fs & Ht). exists t, fs. split; [done|]. intros u gs Hu _. destruct (inside gs) eqn:E; [|done].
        exfalso. apply Hno. by exists u, gs. }
    exists t. destruct (i_prg _ I _ _ Ht) as (pr & Hp & Hs). destruct fs as [|[o p] fs]; [done|].
    destruct p as [v| |k f]; [eapply not_new_ready; by eauto..|].
    eapply new_ready; [done|apply excluded_false; by eauto|]. apply waits_false. intros k' u Hb. apply Hc.
    eapply ask_calls; [done..|]. destruct (decide (u = t)) as [|Hut]; [done|]. exfalso.
    apply (i_busy _ I) in Hb as (gs & Hu & Hk). pose proof (Ho _ _ Hu Hut) as Hi. destruct (i_prg _ I _ _ Hu) as (pr' & _ & Hs').
    destruct gs as [|x [|y gs]]; [done| |done]. destruct Hs' as [_ Hx]. simpl in Hk. apply elem_of_list_singleton in Hk. congruence.
  Qed.
  (** In general the keys must be ordered in a way that is compatible with
      the collisions.  If elements are locked one by one ([conf] is equality)
      it is enough that constructors do not ask for each other in a cycle. *)
  Theorem C53_progress s (lt : K → K → Prop) : well_founded lt → Transitive lt → (∀ k k', calls body k k' → lt k' k) →
    (∀ k k' x, conf k k' = true → lt x k' → lt x k) → reachable s → thr s ≠ ∅ → ∃ t, ready t s.
  Proof.
    intros Hwf Htr Hlt Hcf Hr Hne. assert (lck = true ∨ lck = false) as [Hl|Hl] by (destruct lck; auto).
    - apply C53_progress_locked; try done. intros k k' Hk. destruct (conf k k') eqn:E; [exfalso|done].
      assert (lt k k') as Hkk. { clear -Hk Hlt Htr. induction Hk as [x y Hxy|x y z Hxy _ IH]; [by apply Hlt|]. etrans; [apply IH|by apply Hlt]. }
      specialize (Hcf _ _ _ E Hkk). clear -Hwf Hcf. induction (Hwf k) as [k _ IH]. by eapply IH.
    - apply reachable_inv in Hr as I. destruct (map_choose _ Hne) as (t & fs & Ht). destruct (i_prg _ I _ _ Ht) as (pr & _ & Hs).
      destruct fs as [|[o p] fs]; [done|]. clear pr Hs.
      assert (∀ t o p fs, thr s !! t = Some ((o, p) :: fs) → (∀ k f, p ≠ PNew k f) → ∃ t, ready t s) as Hq by (intros; eexists; by eapply not_new_ready).
      destruct p as [v| |k f]; [by eapply Hq; eauto..|].
      revert t o f fs Ht. induction (Hwf k) as [k _ IH]. intros t o f fs Ht.
      destruct (waits conf k s) eqn:Hw; [|exists t; eapply new_ready; [done|apply excluded_false; congruence|done]].
      unfold waits in Hw. apply bool_decide_eq_true in Hw as (k' & u & Hb & Hc).
      pose proof Hb as Hb'. apply (i_busy _ I) in Hb as (gs & Hu & Hk). destruct (i_prg _ I _ _ Hu) as (pr & _ & Hs).
      destruct gs as [|[o' p'] gs]; [done|]. destruct p' as [v| |k2 f2]; [by eapply Hq; eauto..|].
      eapply (IH k2); [|exact Hu]. apply (Hcf _ _ _ Hc).
      assert (tc (calls body) k' k2) as Htc by (by eapply stack_calls).
      clear -Htc Hlt Htr. induction Htc as [x y Hxy|x y z Hxy _ IH]; [by apply Hlt|]. etrans; [apply IH|by apply Hlt].
  Qed.

  (** A thread that asks for an element colliding with one that it visits
      itself never moves again. *)
  Definition dead (t : tid) (s : state K V) : Prop :=
    ∃ o k f fs k', thr s !! t = Some ((o, PNew k f) :: fs) ∧ busy s !! k' = Some t ∧ conf k k' = true.
  Lemma step_other s l s' t : step s l = Next s' → l ≠ LStep t → (∀ p, l ≠ LStart t p) → thr s' !! t = thr s !! t.
  Proof.
    intros Hs H1 H2. destruct l as [u p|u|k]; simpl in Hs.
    - assert (u ≠ t) by (intros ->; by eapply H2). destruct (thr s !! u); simplify_eq. simpl. by rewrite lookup_insert_ne.
    - assert (u ≠ t) by (intros ->; by apply H1). unfold step_thread in Hs.
      destruct (thr s !! u) as [[|[o p] fs]|]; [done| |done]. destruct p as [v| |k f].
      + destruct o; simplify_eq; simpl; by rewrite ?lookup_insert_ne, ?lookup_delete_ne.
      + destruct o; simplify_eq; simpl; by rewrite ?lookup_insert_ne, ?lookup_delete_ne.
      + destruct (_ || _); [done|]. destruct (ents s !! k) as [[v|]|]; simplify_eq; simpl; by rewrite lookup_insert_ne.
    - destruct (waits conf k s); by simplify_eq.
  Qed.
  Theorem C53_dead_forever s t ls : reachable s → dead t s → thr (run s ls) !! t = thr s !! t ∧ dead t (run s ls).
  Proof.
    intros I%reachable_inv. revert s I. induction ls as [|l ls IH]; intros s I Hd; [done|]. simpl.
    destruct (step s l) as [s'|] eqn:E; [|by apply IH].
    destruct Hd as (o & k & f & fs & k' & Ht & Hb & Hc).
    assert (waits conf k s = true) as Hw by (apply bool_decide_eq_true; by exists k', t).
    assert (thr s' !! t = thr s !! t) as Hs.
    { eapply step_other; [done|..].
      - intros ->. simpl in E. unfold step_thread in E. by rewrite Ht, Hw, orb_true_r in E.
      - intros p ->. simpl in E. by rewrite Ht in E. }
    assert (inv s') as I' by (by eapply step_inv).
    rewrite <- Hs. apply IH; [done|]. exists o, k, f, fs, k'. rewrite Hs. split_and!; [done| |done].
    apply (i_busy _ I'). apply (i_busy _ I) in Hb. by rewrite Hs.
  Qed.

  (** Without collection a value is constructed at most once. *)
  Theorem C53_once ls : (∀ l, l ∈ ls → is_gc l = false) → NoDup (built (run init ls)).
  Proof.
    assert (∀ s, inv s → NoDup (built s) → (∀ k, k ∈ built s → ∃ v, ents s !! k = Some (Some v)) → (∀ l, l ∈ ls → is_gc l = false) → NoDup (built (run s ls))) as Hx.
    { induction ls as [|l ls IH]; intros s I Hn He Hg; [done|]. simpl.
      destruct (step s l) as [s'|] eqn:E; [|apply IH; try done; intros l' Hl; apply Hg; by apply elem_of_list_further].
      assert (inv s') as I' by (by eapply step_inv).
      assert (NoDup (built s') ∧ ∀ k, k ∈ built s' → ∃ v, ents s' !! k = Some (Some v)) as [Hn' He'].
      { pose proof (Hg l (elem_of_list_here _ _)) as Hl. destruct l as [u p|u|k]; simpl in E; [| |done].
        - destruct (thr s !! u); by simplify_eq.
        - unfold step_thread in E. destruct (thr s !! u) as [[|[o p] fs]|] eqn:Ht; [done| |done]. destruct p as [v| |k f].
          + destruct o as [k|]; simplify_eq; [|done]. simpl.
            assert (busy s !! k = Some u) as Hb by (apply (i_busy _ I); eexists; split; [done|]; apply elem_of_list_here).
            split.
            * apply NoDup_cons. split; [|done]. intros Hk. apply He in Hk as (v' & Hv). rewrite (i_open _ I _ _ Hb) in Hv. done.
            * intros k' [->|Hk]%elem_of_cons; [rewrite lookup_insert; by eauto|]. destruct (decide (k' = k)) as [->|]; [rewrite lookup_insert; by eauto|].
              rewrite lookup_insert_ne by congruence. by apply He.
          + by destruct o; simplify_eq.
          + destruct (_ || _); [done|]. destruct (ents s !! k) as [[v|]|] eqn:Ek; simplify_eq; simpl; (split; [done|]); [done|..];
              intros k' Hk; apply He in Hk as (v' & Hv); (destruct (decide (k' = k)) as [->|]; [congruence|]);
              rewrite lookup_insert_ne by congruence; by eauto. }
      apply IH; try done. intros l' Hl. apply Hg. by apply elem_of_list_further. }
    intros Hg. apply Hx; [apply inv_init|constructor|by intros k Hk%elem_of_nil|done].
  Qed.

  (** ** Termination *)
  Inductive moves : list (option K * prog K V) → list (option K * prog K V) → Prop :=
  | m_hit o k f fs v : evals body (body k) (Some v) → moves ((o, f (Some v)) :: fs) ((o, PNew k f) :: fs)
  | m_push o k f fs : moves ((Some k, body k) :: (o, PNew k f) :: fs) ((o, PNew k f) :: fs)
  | m_ret k v fs : moves (resume (Some v) fs) ((Some k, PRet v) :: fs)
  | m_throw k fs : moves (resume None fs) ((Some k, PThrow) :: fs).
  Context (wf : well_founded (λ k' k, calls body k k')).
  Lemma acc_call k : ∀ p pr, frame_ok pr (Some k, p) → ∀ o f fs,
    (∀ r, evals body (body k) r → Acc moves ((o, f r) :: fs)) → Acc moves ((Some k, p) :: (o, PNew k f) :: fs).
  Proof.
    induction (wf k) as [k _ IHk]. induction p as [v| |k2 f2 IHp]; intros pr Hf o f fs Hr.
    - constructor. intros y Hy. inversion Hy; subst. simpl. apply Hr, Hf. constructor.
    - constructor. intros y Hy. inversion Hy; subst. simpl. apply Hr, Hf. constructor.
    - constructor. intros y Hy. inversion Hy; subst.
      + eapply IHp; [|done]. by eapply frame_next.
      + eapply IHk; [apply Hf; constructor|apply (frame_body pr)|]. intros r Hr'. eapply IHp; [|done]. by eapply frame_next.
  Qed.
  Lemma acc_client p : Acc moves [(None, p)].
  Proof.
    induction p as [v| |k f IH]; constructor; intros y Hy; inversion Hy; subst; [done|].
    eapply (acc_call k _ PThrow); [apply frame_body|]. by intros r _.
  Qed.
  Lemma acc_stack pr fs : ∀ o p, stack_ok pr ((o, p) :: fs) → Acc moves ((o, p) :: fs).
  Proof.
    induction fs as [|[o' p'] fs IH]; intros o p [Hf Hs].
    - simpl in Hs. subst o. apply acc_client.
    - destruct Hs as [(k & f & Hk & Hp) Hs]. simpl in Hk, Hp. subst o p'. eapply acc_call; [done|]. intros r Hr. apply IH. by eapply stack_next.
  Qed.
  Definition pool (m' m : gmap tid (list (option K * prog K V))) : Prop :=
    ∃ t fs, m !! t = Some fs ∧ (m' = delete t m ∨ ∃ fs', moves fs' fs ∧ m' = <[t:=fs']> m).
  Lemma acc_pool m : (∀ t fs, m !! t = Some fs → Acc moves fs) → Acc pool m.
  Proof.
    induction m as [|t fs m Ht IH] using map_ind; intros Ha.
    - constructor. intros m' (u & gs & Hu & _). by rewrite lookup_empty in Hu.
    - assert (Acc moves fs) as Hfs by (eapply (Ha t); by rewrite lookup_insert).
      assert (Acc pool m) as Hm.
      { apply IH. intros u gs Hu. assert (u ≠ t) by congruence. eapply (Ha u). by rewrite lookup_insert_ne. }
      clear IH Ha. revert fs Hfs Ht. induction Hm as [m Hm IHm]. intros fs Hfs. induction Hfs as [fs Hfs IHfs]. intros Ht.
      constructor. intros m' (u & gs & Hu & Hor). destruct (decide (u = t)) as [->|Hne].
      + rewrite lookup_insert in Hu. simplify_eq. destruct Hor as [->|(fs' & Hmv & ->)].
        * rewrite delete_insert by done. by constructor.
        * rewrite insert_insert. by apply IHfs.
      + rewrite lookup_insert_ne in Hu by done. destruct Hor as [->|(fs' & Hmv & ->)].
        * rewrite delete_insert_ne by done. apply IHm; [|by constructor|by rewrite lookup_delete_ne].
          exists u, gs. split; [done|by left].
        * rewrite insert_commute by done. apply IHm; [|by constructor|by rewrite lookup_insert_ne].
          exists u, gs. split; [done|]. right. by exists fs'.
  Qed.
  (** a thread moves, after any number of collections *)
  Definition progress (s' s : state K V) : Prop := ∃ ks t, step (run s (LGc <$> ks)) (LStep t) = Next s'.
  Lemma gc_thr (ks : list K) : ∀ s : state K V, thr (run s (LGc <$> ks)) = thr s.
  Proof. induction ks as [|k ks IH]; intros s; [done|]. simpl. rewrite IH. by destruct (waits conf k s). Qed.
  Theorem C53_terminates s : reachable s → Acc progress s.
  Proof.
    intros I%reachable_inv. assert (Acc pool (thr s)) as Ha.
    { apply acc_pool. intros t fs Ht. destruct (i_prg _ I _ _ Ht) as (pr & _ & Hs). destruct fs as [|[o p] fs]; [done|]. by eapply acc_stack. }
    remember (thr s) as m eqn:Em. revert s I Em. induction Ha as [m _ IH]. intros s I ->. constructor. intros s' (ks & t & Hs).
    assert (inv (run s (LGc <$> ks))) as I1 by (by apply run_inv). pose proof (gc_thr ks s) as Eg.
    eapply IH; [|by eapply step_inv|done]. rewrite <- Eg. revert Hs I1. generalize (run s (LGc <$> ks)). clear. intros s Hs I.
    simpl in Hs. unfold step_thread in Hs. destruct (thr s !! t) as [[|[o p] fs]|] eqn:Ht; [done| |done].
    exists t, ((o, p) :: fs). split; [done|]. destruct p as [v| |k f].
    - destruct o as [k|]; simplify_eq; simpl; [right|by left]. eexists. split; [constructor|done].
    - destruct o as [k|]; simplify_eq; simpl; [right|by left]. eexists. split; [constructor|done].
    - destruct (_ || _); [done|]. right. destruct (ents s !! k) as [[v|]|] eqn:Ek; simplify_eq; simpl; eexists; (split; [|done]); constructor.
      by apply (i_val _ I).
  Qed.
End proofs.

(** ** Cycles
    Conversely, even if elements are locked one by one, a constructor that
    asks for its own key, directly or through others, deadlocks. *)
Section cycle.
  Context {K V : Type} `{Countable K} (body : K → prog K V) (conf : K → K → bool) (lck : bool).
  Context (conf_eq : ∀ k k', conf k k' = true ↔ k = k').
  Notation step := (step body conf lck).
  Notation run := (run body conf lck).
  Notation inv := (inv body lck).
  Definition acc : K → Prop := Acc (λ k' k, calls body k k').
  Lemma conf_refl' k : conf k k = true.
  Proof. by apply conf_eq. Qed.
  Lemma evals_acc p r : evals body p r → ∀ k, asks body p k → acc k.
  Proof.
    induction 1 as [v| |k f r r' Hk IHk Hf IHf]; intros k' Ha; inversion Ha; subst.
    - constructor. intros k2 H2. by apply IHk.
    - apply IHf. by rewrite (evals_det _ _ _ _ Hk ltac:(eassumption)).
  Qed.
  Lemma body_acc k r : evals body (body k) r → acc k.
  Proof. intros He. constructor. intros k' Hk. by eapply evals_acc. Qed.
  Lemma acc_rtc k k' : acc k → rtc (calls body) k k' → acc k'.
  Proof. intros Ha. induction 1 as [|k k1 k' H1 _ IH]; [done|]. apply IH. by apply Ha. Qed.
  Lemma acc_no_cycle k : acc k → ¬ tc (calls body) k k.
  Proof.
    intros Ha. induction Ha as [k Ha IH]. intros Hc.
    assert (∃ k1, calls body k k1 ∧ rtc (calls body) k1 k) as (k1 & H1 & H2).
    { inversion Hc; subst; [by eexists|]. eexists. split; [done|]. by apply tc_rtc. }
    apply (IH k1 H1). clear -H1 H2. by eapply tc_rtc_l, tc_once.
  Qed.
  Lemma run_app ls ls' s : run s (ls ++ ls') = run (run s ls) ls'.
  Proof. revert s. induction ls as [|l ls IH]; intros s; [done|]. simpl. apply IH. Qed.

  (** the only thread *)
  Definition solo (t : tid) fs (s : state K V) : Prop := thr s = {[ t := fs ]}.
  Lemma solo_lookup t fs s : solo t fs s → thr s !! t = Some fs.
  Proof. intros ->. apply lookup_singleton. Qed.
  Lemma solo_set t fs fs' s : solo t fs s → <[t:=fs']> (thr s) = {[ t := fs' ]}.
  Proof. intros ->. apply insert_singleton. Qed.
  Lemma solo_excluded t fs s : solo t fs s → excluded lck t s = false.
  Proof. intros Hs. apply excluded_false. intros _ u gs Hu Hne. rewrite Hs in Hu. apply lookup_singleton_Some in Hu as [-> _]. done. Qed.
  Lemma solo_waits t o k f fs s : inv s → solo t ((o, PNew k f) :: fs) s → Some k ∉ ((o, PNew k f) :: fs).*1 → waits conf k s = false.
  Proof.
    intros I Hs Hk. apply waits_false. intros k' u Hb. destruct (conf k k') eqn:E; [|done]. apply conf_eq in E as <-. exfalso.
    apply (i_busy _ _ _ I) in Hb as (gs & Hu & Hg). rewrite Hs in Hu. apply lookup_singleton_Some in Hu as [-> <-]. done.
  Qed.
  Definition value (r : option V) : prog K V := match r with Some v => PRet v | None => PThrow end.

  Definition steps (n : nat) (t : tid) (s : state K V) : state K V := run s (replicate n (LStep t)).
  Lemma steps_inv n t s : inv s → inv (steps n t s).
  Proof. apply run_inv, conf_refl'. Qed.
  Lemma steps_add n m t s : steps (n + m) t s = steps m t (steps n t s).
  Proof. unfold steps. by rewrite replicate_add, run_app. Qed.
  Lemma steps_one t s s' : step s (LStep t) = Next s' → steps 1 t s = s'.
  Proof. intros E. unfold steps. simpl in *. by rewrite E. Qed.
  Lemma step_inv' s l s' : inv s → step s l = Next s' → inv s'.
  Proof. apply step_inv, conf_refl'. Qed.
  Lemma solo_push t o k f fs s : inv s → solo t ((o, PNew k f) :: fs) s → Some k ∉ ((o, PNew k f) :: fs).*1 → (∀ v, ents s !! k ≠ Some (Some v)) →
    inv (steps 1 t s) ∧ solo t ((Some k, body k) :: (o, PNew k f) :: fs) (steps 1 t s).
  Proof.
    intros I Hs Hk Hv. split; [by apply steps_inv|].
    pose proof (solo_waits _ _ _ _ _ _ I Hs Hk) as Hw. pose proof (solo_excluded _ _ _ Hs) as He.
    assert (step s (LStep t) = Next (State (<[k:=None]> (ents s)) (<[k:=t]> (busy s))
      (<[t:=(Some k, body k) :: (o, PNew k f) :: fs]> (thr s)) (built s) (fin s) (prg s))) as E.
    { simpl. unfold step_thread. rewrite (solo_lookup _ _ _ Hs), He, Hw. cbn [orb]. destruct (ents s !! k) as [[v|]|] eqn:Ek; [by edestruct Hv|done..]. }
    rewrite (steps_one _ _ _ E). unfold solo. simpl. by eapply solo_set.
  Qed.
  Definition finishes (p : prog K V) (r : option V) : Prop := ∀ t o fs s, inv s → solo t ((o, p) :: fs) s →
    (∀ j k, Some j ∈ ((o, p) :: fs).*1 → asks body p k → ¬ rtc (calls body) k j) → ∃ n, solo t ((o, value r) :: fs) (steps n t s).
  Lemma solo_call k r t o f fs s : evals body (body k) r → finishes (body k) r → inv s → solo t ((o, PNew k f) :: fs) s →
    (∀ j, Some j ∈ ((o, PNew k f) :: fs).*1 → ¬ rtc (calls body) k j) → ∃ n, solo t ((o, f r) :: fs) (steps n t s).
  Proof.
    intros Hk Hfin I Hs Hst.
    assert (Some k ∉ ((o, PNew k f) :: fs).*1) as Hnk by (intros Hin; by apply (Hst k Hin)).
    assert ((∃ v, ents s !! k = Some (Some v)) ∨ ∀ v, ents s !! k ≠ Some (Some v)) as [[v Ek]|Hv].
    { destruct (ents s !! k) as [[v|]|]; [left; by eauto|right; congruence..]. }
    - pose proof (solo_waits _ _ _ _ _ _ I Hs Hnk) as Hw. pose proof (solo_excluded _ _ _ Hs) as He.
      assert (r = Some v) as -> by (eapply evals_det; [done|by apply (i_val _ _ _ I)]).
      assert (step s (LStep t) = Next (set_thr t ((o, f (Some v)) :: fs) s)) as E
        by (simpl; unfold step_thread; by rewrite (solo_lookup _ _ _ Hs), He, Hw, Ek).
      exists 1. rewrite (steps_one _ _ _ E). by eapply solo_set.
    - destruct (solo_push _ _ _ _ _ _ I Hs Hnk Hv) as [I1 Hs1].
      destruct (Hfin t (Some k) ((o, PNew k f) :: fs) _ I1 Hs1) as [n Hn].
      { intros j k2 Hj Ha Hr. simpl in Hj. apply elem_of_cons in Hj as [[= ->]|Hj].
        - apply (acc_no_cycle k); [by eapply body_acc|]. by eapply tc_rtc_r, Hr; apply tc_once.
        - apply (Hst j Hj). by eapply rtc_l. }
      exists (1 + n + 1). rewrite !steps_add. set (s2 := steps n t (steps 1 t s)) in *.
      assert (∃ s3, step s2 (LStep t) = Next s3 ∧ solo t ((o, f r) :: fs) s3) as (s3 & E & Hs3).
      { simpl. unfold step_thread. rewrite (solo_lookup _ _ _ Hn). destruct r as [v|]; simpl; eexists; (split; [done|]); by eapply solo_set. }
      by rewrite (steps_one _ _ _ E).
  Qed.
  (** a program that has a result gets there *)
  Lemma solo_eval p r : evals body p r → finishes p r.
  Proof.
    induction 1 as [v| |k f r r' Hk IHk Hf IHf]; intros t o fs s I Hs Hst; [by exists 0..|].
    destruct (solo_call k r t o f fs s Hk IHk I Hs) as [n Hn].
    { intros j Hj. apply (Hst j k Hj). constructor. }
    destruct (IHf t o fs _ (steps_inv n t s I) Hn) as [m Hm].
    { intros j k' Hj Ha. apply (Hst j k'); [done|]. by econstructor. }
    exists (n + m). by rewrite steps_add.
  Qed.
  (** a program gets to what it asks for *)
  Lemma solo_asks p k' : asks body p k' → ∀ t o fs s, inv s → solo t ((o, p) :: fs) s →
    (∀ j, Some j ∈ ((o, p) :: fs).*1 → ¬ acc j) → ∃ n f, solo t ((o, PNew k' f) :: fs) (steps n t s).
  Proof.
    induction 1 as [k f|k f r k' Hr Ha IH]; intros t o fs s I Hs Hst; [by exists 0, f|].
    destruct (solo_call k r t o f fs s Hr (solo_eval _ _ Hr) I Hs) as [n Hn].
    { intros j Hj Hkj. apply (Hst j Hj). eapply acc_rtc; [by eapply body_acc|done]. }
    destruct (IH t o fs _ (steps_inv n t s I) Hn Hst) as (m & f' & Hm). exists (n + m), f'. by rewrite steps_add.
  Qed.
  Lemma solo_dead t o k f fs s : inv s → solo t ((o, PNew k f) :: fs) s → Some k ∈ ((o, PNew k f) :: fs).*1 → dead conf t s.
  Proof.
    intros I Hs Hk. exists o, k, f, fs, k. split_and!; [by apply solo_lookup| |apply conf_refl'].
    apply (i_busy _ _ _ I). eexists. split; [by apply solo_lookup|done].
  Qed.
  Lemma solo_walk k ke : tc (calls body) k ke → ¬ acc ke → ∀ t fs s, inv s → solo t ((Some k, body k) :: fs) s →
    Some ke ∈ ((Some k, body k) :: fs).*1 → (∀ j, Some j ∈ ((Some k, body k) :: fs).*1 → ¬ acc j) → ∃ n, dead conf t (steps n t s).
  Proof.
    intros Hc Hke. induction Hc as [k ke Hk|k y ke Hk Hc IH]; intros t fs s I Hs Hin Hst.
    - destruct (solo_asks _ _ Hk _ _ _ _ I Hs Hst) as (n & f & Hn). exists n. eapply solo_dead; [by apply steps_inv|done|done].
    - destruct (solo_asks _ _ Hk _ _ _ _ I Hs Hst) as (n & f & Hn).
      destruct (decide (Some y ∈ ((Some k, PNew y f) :: fs).*1)) as [Hy|Hy]; [exists n; eapply solo_dead; [by apply steps_inv|done|done]|].
      assert (¬ acc y) as Hay by (intros Hy'; apply Hke; eapply acc_rtc; [done|by apply tc_rtc]).
      destruct (solo_push _ _ _ _ _ _ (steps_inv n t s I) Hn Hy) as [I1 Hs1].
      { intros v Hv. apply Hay. eapply body_acc. by apply (i_val _ _ _ (steps_inv n t s I)). }
      destruct (IH Hke t _ _ I1 Hs1) as [m Hm].
      + simpl. apply elem_of_list_further. done.
      + simpl. intros j [[= ->]|Hj]%elem_of_cons; [done|]. by apply Hst.
      + exists (n + 1 + m). by rewrite !steps_add.
  Qed.
  Theorem C53_cycle k f : tc (calls body) k k →
    ∃ n, dead conf 0 (run init (LStart 0 (PNew k f) :: replicate n (LStep 0))).
  Proof.
    intros Hc. assert (¬ acc k) as Hk by (intros Ha; by apply (acc_no_cycle k)).
    set (s0 := State ∅ ∅ {[ 0 := [(None, PNew k f)] ]} [] [] {[ 0 := PNew k f ]} : state K V).
    assert (step init (LStart 0 (PNew k f)) = Next s0) as E by done.
    assert (inv s0) as I0 by (eapply step_inv'; [apply inv_init|exact E]).
    destruct (solo_push 0 None k f [] s0 I0) as [I1 Hs1]; [done| |done|].
    { simpl. intros Hx%elem_of_list_singleton. done. }
    destruct (solo_walk k k Hc Hk 0 _ _ I1 Hs1) as [n Hn].
    - apply elem_of_list_here.
    - simpl. intros j [[= ->]|Hj%elem_of_list_singleton]%elem_of_cons; done.
    - exists (1 + n). change (dead conf 0 (steps (1 + n) 0 s0)). by rewrite steps_add.
  Qed.
End cycle.

(** ** Examples
    example/fibonacci.cpp with concurrent_factory: a number asks for the two
    before it. *)
Definition fib (n : nat) : prog nat nat :=
  match n with
  | 0 | 1 => PRet n
  | S (S n) => PNew n (λ r, match r with None => PThrow | Some a => PNew (S n) (λ r, match r with None => PThrow | Some b => PRet (a + b) end) end)
  end.
Lemma fib_calls n k : calls fib n k → k < n.
Proof.
  unfold calls. destruct n as [|[|n]]; simpl; intros Ha; inversion Ha; subst; [lia|].
  match goal with H : asks _ _ _ |- _ => destruct r; inversion H; subst; [lia|] end.
  match goal with H : asks _ _ _ |- _ => match type of H with asks _ (match ?r with _ => _ end) _ => destruct r; inversion H end end.
Qed.
Lemma fib_wf : well_founded (λ k' k, calls fib k k').
Proof. apply (wf_incl _ _ lt); [intros k' k; apply fib_calls|apply lt_wf]. Qed.
Definition eqn (k k' : nat) : bool := bool_decide (k = k').
Definition client (k : nat) : prog nat nat := PNew k (λ r, match r with None => PThrow | Some v => PRet v end).
(** elements locked one by one: two threads compute fib 5 together *)
Definition together : list (label nat nat) :=
  [LStart 1 (client 5); LStart 2 (client 4)] ++ concat (replicate 40 [LStep 1; LStep 2]).
Example C53_fib_case : (fin (run fib eqn false init together)).*2 = [Some 5; Some 3].
Proof. by vm_compute. Qed.
Example C53_fib_progress lck s : reachable fib eqn lck s → thr s ≠ ∅ → ∃ t, ready fib eqn lck t s.
Proof.
  apply (C53_progress fib eqn lck (λ k, bool_decide_eq_true_2 _ eq_refl) s lt lt_wf _ fib_calls).
  intros k k' x ->%bool_decide_eq_true. done.
Qed.
Example C53_fib_terminates lck s : reachable fib eqn lck s → Acc (progress fib eqn lck) s.
Proof. apply C53_terminates; [intros k; by apply bool_decide_eq_true_2|apply fib_wf]. Qed.
Example C53_fib_once : NoDup (built (run fib eqn false init together)) ∧ built (run fib eqn false init together) = [5; 4; 3; 2; 0; 1].
Proof.
  split; [|by vm_compute]. apply C53_once; [intros k; by apply bool_decide_eq_true_2|].
  apply Forall_forall. vm_compute. repeat constructor.
Qed.
(** elements locked in groups: one thread is enough to deadlock *)
Definition groups (k k' : nat) : bool := k / 4 =? k' / 4.
Theorem C53_group_refuted : (∀ n k, calls fib n k → k < n) ∧ (∀ k, groups k k = true) ∧
  ∃ ls, dead groups 1 (run fib groups true init ls).
Proof.
  split; [apply fib_calls|]. split; [intros k; apply Nat.eqb_refl|].
  exists [LStart 1 (client 3); LStep 1]. do 4 eexists. exists 3. split; [by vm_compute|]. split; by vm_compute.
Qed.
(** and it may take two threads, unless there is a mutex: 0 asks for 1 and 2
    asks for 3, where 0 and 3, and 1 and 2, are in one group *)
Definition pair_body (k : nat) : prog nat nat :=
  match k with 0 => PNew 1 (λ _, PRet 0) | 2 => PNew 3 (λ _, PRet 2) | _ => PRet k end.
Definition pair_group (k : nat) : nat := match k with 0 | 3 => 0 | 1 | 2 => 1 | _ => k end.
Definition pair_conf (k k' : nat) : bool := pair_group k =? pair_group k'.
Lemma pair_calls k k' : calls pair_body k k' → (k = 0 ∧ k' = 1) ∨ (k = 2 ∧ k' = 3).
Proof.
  unfold calls. destruct k as [|[|[|k]]]; simpl; intros Ha; inversion Ha; subst; auto; match goal with H : asks _ (PRet _) _ |- _ => inversion H end.
Qed.
Lemma pair_apart k k' : tc (calls pair_body) k' k → pair_conf k k' = false.
Proof.
  intros Hc. assert (calls pair_body k' k) as Hk%pair_calls; [|by destruct Hk as [[-> ->]|[-> ->]]].
  induction Hc as [x y Hxy|x y z Hxy _ IH]; [done|]. apply pair_calls in Hxy, IH. exfalso. lia.
Qed.
Definition crossing : list (label nat nat) := [LStart 1 (client 0); LStart 2 (client 2); LStep 1; LStep 2].
Theorem C53_cross_refuted : (∀ k k', tc (calls pair_body) k' k → pair_conf k k' = false) ∧
  ∃ s, s = run pair_body pair_conf false init crossing ∧ thr s ≠ ∅ ∧ ∀ t, ¬ ready pair_body pair_conf false t s.
Proof.
  split; [apply pair_apart|]. eexists. split; [done|]. set (s := run _ _ _ _ _).
  assert (thr s !! 1 = Some [(Some 0, PNew 1 (λ _, PRet 0)); (None, client 0)] ∧ thr s !! 2 = Some [(Some 2, PNew 3 (λ _, PRet 2)); (None, client 2)] ∧
    waits pair_conf 1 s = true ∧ waits pair_conf 3 s = true) as (H1 & H2 & W1 & W2) by (vm_compute; split_and!; reflexivity).
  split; [intros Hn; by rewrite Hn, lookup_empty in H1|].
  intros t [s' Hs]. simpl in Hs. unfold step_thread in Hs. destruct (decide (t = 1)) as [->|N1]; [by rewrite H1, W1 in Hs|].
  destruct (decide (t = 2)) as [->|N2]; [by rewrite H2, W2 in Hs|].
  assert (thr s !! t = None) as Hn; [|by rewrite Hn in Hs].
  assert (thr s = <[2:=[(Some 2, PNew 3 (λ _, PRet 2)); (None, client 2)]]> (<[1:=[(Some 0, PNew 1 (λ _, PRet 0)); (None, client 0)]]>
    (<[2:=[(None, client 2)]]> (<[1:=[(None, client 0)]]> ∅)))) as -> by done.
  by rewrite !lookup_insert_ne.
Qed.
Example C53_locked_case s : reachable pair_body pair_conf true s → thr s ≠ ∅ → ∃ t, ready pair_body pair_conf true t s.
Proof. apply (C53_progress_locked pair_body pair_conf true); [intros k; apply Nat.eqb_refl|done|apply pair_apart]. Qed.
(** a constructor that asks for its own key through another *)
Definition loop (k : nat) : prog nat nat := match k with 0 => PNew 2 (λ _, PNew 1 (λ _, PRet 0)) | 1 => PNew 0 (λ _, PRet 1) | _ => PRet k end.
Example C53_cycle_case : tc (calls loop) 0 0 ∧ ∃ n, dead eqn 0 (run loop eqn false init (LStart 0 (client 0) :: replicate n (LStep 0))).
Proof.
  assert (tc (calls loop) 0 0) as Hc.
  { apply (tc_l _ 0 1 0); [|apply tc_once; unfold calls; simpl; constructor]. unfold calls. simpl.
    eapply (asks_later _ _ _ (Some 2)); [|constructor]. simpl. constructor. }
  split; [done|]. apply C53_cycle; [|done]. intros k k'. apply bool_decide_eq_true.
Qed.
(** a value that has been collected is constructed again *)
Theorem C53_again_refuted : ∃ ls, ¬ NoDup (built (run fib eqn false init ls)).
Proof.
  exists ([LStart 1 (client 0)] ++ replicate 3 (LStep 1) ++ [LGc 0; LStart 1 (client 0)] ++ replicate 3 (LStep 1)).
  assert (built (run fib eqn false init ([LStart 1 (client 0)] ++ replicate 3 (LStep 1) ++ [LGc 0; LStart 1 (client 0)] ++ replicate 3 (LStep 1))) = [0; 0]) as ->
    by (by vm_compute).
  intros [Hn _]%NoDup_cons. apply Hn, elem_of_list_here.
Qed.

Print Assumptions C53_values.
Print Assumptions C53_progress.
Print Assumptions C53_progress_locked.
Print Assumptions C53_dead_forever.
Print Assumptions C53_once.
Print Assumptions C53_terminates.
Print Assumptions C53_cycle.
Print Assumptions C53_group_refuted.
Print Assumptions C53_cross_refuted.
Print Assumptions C53_again_refuted.
