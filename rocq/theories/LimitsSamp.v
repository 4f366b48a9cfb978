(** C63 for the samplers: a chain with a larger maxiter begins with the shorter chain. *)
From Verif Require Import Base Num Env Common DE Sample Hoare Rel Laws Disc Limits.

Section Samp.
  Context {N : Num} {E : Env N}.

  Definition with_maxiter (m : Z) (a : SArgs) : SArgs :=
    mkSArgs (s_callable a) (s_bounds a) (s_x0 a) m (s_stepsize a) (s_stepsize_array a) (s_seed a)
            (s_constraints a) (s_return_all a) (s_callback a).

  Variables m n : Z.
  Hypothesis Hmn : (1 <= m <= n)%Z.
  Notation same := (@rel N E E eq).

  (** A chain that begins with another one. *)
  Definition longer (c c' : Chain) : Prop :=
    exists u v, ch_x c' = ch_x c ++ u /\ ch_f c' = ch_f c ++ v.
  Lemma longer_refl c : longer c c.
  Proof. exists [], []. rewrite !app_nil_r. auto. Qed.
  Lemma longer_trans a b c : longer a b -> longer b c -> longer a c.
  Proof.
    intros (u & v & H1 & H2) (u' & v' & H3 & H4). exists (u ++ u'), (v ++ v').
    rewrite H3, H4, H1, H2, !app_assoc. auto.
  Qed.
  Definition len (c : Chain) : Z := Z.of_nat (length (ch_x c)).

  Lemma accept_longer c x f : longer c (ch_accept c x f) /\ len (ch_accept c x f) = (len c + 1)%Z.
  Proof.
    unfold ch_accept, len. destruct (nltb f (ch_fmin c)); cbn; rewrite app_length; cbn;
      (split; [eexists _, _; split; reflexivity | lia]).
  Qed.
  Lemma reject_longer c : longer c (ch_reject c) /\ len (ch_reject c) = (len c + 1)%Z.
  Proof.
    unfold ch_reject, len. cbn. rewrite app_length. cbn.
    split; [eexists _, _; split; reflexivity | lia].
  Qed.

  (** ** mcmc *)
  Definition mc_m (P : MCParams) (k : Z) : MCParams :=
    mkMCParams (mc_d P) (mc_b P) (mc_lower P) (mc_upper P) (mc_step P) k (with_maxiter k (mc_args P)).

  Lemma mc_move_m P j c : mc_move (mc_m P m) j c = mc_move (mc_m P n) j c.
  Proof. reflexivity. Qed.

  Lemma mc_move_post P j c : post (mc_move P j c) (fun c' => longer c c' /\ len c' = (len c + 1)%Z).
  Proof.
    unfold mc_move. eapply post_bind; [apply post_any|]. intros y _.
    eapply post_bind with (Q := fun c' => longer c c' /\ len c' = (len c + 1)%Z).
    - destruct (in_search_space _ _ _ _); [|apply post_ret, reject_longer].
      eapply post_bind; [apply post_any|]. intros fy _.
      eapply post_bind; [apply post_any|]. intros u _. apply post_ret.
      destruct (metropolis _ _); [apply accept_longer | apply reject_longer].
    - intros c' H. eapply post_bind; [apply post_any|]. intros _ _. apply post_ret, H.
  Qed.

  Lemma mc_inner_post P js : forall c, post (mc_inner P js c) (longer c).
  Proof.
    induction js as [|j js IH]; intro c; cbn [mc_inner]; [apply post_ret, longer_refl|].
    eapply post_bind; [apply mc_move_post|]. intros c1 [H1 _].
    destruct (mc_full P c1); [apply post_ret, H1|].
    intros s a Ha. eapply longer_trans; [exact H1 | exact (IH c1 s a Ha)].
  Qed.
  Lemma mc_outer_post P k : forall c, post (mc_outer P k c) (longer c).
  Proof.
    induction k as [|k IH]; intro c; cbn [mc_outer];
      (destruct (_ <? _)%Z; [|apply post_ret, longer_refl]).
    - intros s a; discriminate.
    - eapply post_bind; [apply mc_inner_post|]. intros c1 H1.
      intros s a Ha. eapply longer_trans; [exact H1 | exact (IH c1 s a Ha)].
  Qed.

  (** What the second run does after the first one has returned the chain [c] in the state [t]. *)
  Definition after (c : Chain) (t : St) (y : (Chain + Exn) * St) : Prop :=
    (exists rest, tr (snd y) = tr t ++ rest) /\ (forall c', fst y = inl c' -> longer c c').

  Definition chases (m1 m2 : M Chain) : Prop := forall s,
    (m1 s = m2 s /\ forall c, fst (m1 s) = inl c -> (len c < m)%Z) \/
    (exists c t, m1 s = (inl c, t) /\ len c = m /\ after c t (m2 s)).

  Lemma after_go (k : Chain -> M Chain) c t :
    disc (k c) -> post (k c) (longer c) -> after c t (k c t).
  Proof.
    intros HD HP. split.
    - destruct (HD t) as (evs & He & _). exists evs. exact He.
    - intros c' Hc. exact (HP t c' Hc).
  Qed.

  Lemma mc_inner_chases P js : forall c, (len c < m)%Z ->
    chases (mc_inner (mc_m P m) js c) (mc_inner (mc_m P n) js c).
  Proof.
    induction js as [|j js IH]; intros c Hc; cbn [mc_inner].
    { intro s. left. split; [reflexivity|]. intros c' [= <-]. exact Hc. }
    intro s. unfold bind. rewrite <- mc_move_m.
    pose proof (mc_move_post (mc_m P m) j c s) as Hp.
    destruct (mc_move (mc_m P m) j c s) as [[c1|e] s1]; cbn [fst] in Hp.
    2:{ left. split; [reflexivity|]. discriminate. }
    destruct (Hp c1 eq_refl) as [HL Hlen].
    unfold mc_full. cbn [mc_m mc_maxiter]. fold (len c1).
    destruct (Z.eqb_spec (len c1) m) as [Em|Em].
    - right. exists c1, s1. split; [reflexivity|]. split; [exact Em|].
      destruct (Z.eqb_spec (len c1) n) as [En|En].
      + apply (after_go (fun c => ret c)); [apply disc_ret | apply post_ret, longer_refl].
      + apply (after_go (fun c => mc_inner (mc_m P n) js c)); [apply disc_mc_inner | apply mc_inner_post].
    - destruct (Z.eqb_spec (len c1) n) as [En|En]; [lia|]. apply (IH c1); lia.
  Qed.

  Lemma mc_inner_grow P js : forall c, post (mc_inner P js c) (fun c' => js <> [] -> (len c < len c')%Z).
  Proof.
    destruct js as [|j js]; intro c; cbn [mc_inner]; [apply post_ret; congruence|].
    eapply post_bind; [apply mc_move_post|]. intros c1 [_ H1].
    destruct (mc_full P c1); [apply post_ret; intros _; lia|].
    intros s a Ha _. destruct (mc_inner_post P js c1 s a Ha) as (u & v & Hu & _).
    unfold len in *. rewrite Hu, app_length. lia.
  Qed.

  Lemma mc_outer_chases P : arange 0 (mc_d P) (mc_b P) <> [] -> forall k k' c,
    (len c <= m)%Z -> (m <= len c + Z.of_nat k)%Z -> (n <= len c + Z.of_nat k')%Z ->
    forall s, (exists e t, mc_outer (mc_m P m) k c s = (inr e, t) /\ mc_outer (mc_m P n) k' c s = (inr e, t)) \/
              (exists c1 t, mc_outer (mc_m P m) k c s = (inl c1, t) /\ len c1 = m /\
                            after c1 t (mc_outer (mc_m P n) k' c s)).
  Proof.
    intro HB. induction k as [|k IH]; intros k' c H1 H2 H3 s.
    - right. exists c, s. cbn [mc_outer]. cbn [mc_m mc_maxiter]. fold (len c).
      destruct (Z.ltb_spec (len c) m); [lia|]. split; [reflexivity|]. split; [lia|].
      apply (after_go (fun c => mc_outer (mc_m P n) k' c)); [apply disc_mc_outer | apply mc_outer_post].
    - destruct (Z.ltb_spec (len c) m) as [Hc|Hc].
      2:{ right. exists c, s. cbn [mc_outer]. cbn [mc_m mc_maxiter]. fold (len c).
          destruct (Z.ltb_spec (len c) m); [lia|]. split; [reflexivity|]. split; [lia|].
          apply (after_go (fun c => mc_outer (mc_m P n) k' c)); [apply disc_mc_outer | apply mc_outer_post]. }
      destruct k' as [|k']; [lia|].
      cbn [mc_outer]. cbn [mc_m mc_maxiter mc_d mc_b]. fold (len c).
      destruct (Z.ltb_spec (len c) m); [|lia]. destruct (Z.ltb_spec (len c) n); [|lia].
      unfold bind. set (js := arange 0 (mc_d P) (mc_b P)) in *.
      destruct (mc_inner_chases P js c Hc s) as [[He Hl] | (c1 & t & He & Hl & Ha)].
      + change {| mc_d := mc_d P; mc_b := mc_b P; mc_lower := mc_lower P; mc_upper := mc_upper P;
                  mc_step := mc_step P; mc_maxiter := m; mc_args := with_maxiter m (mc_args P) |}
          with (mc_m P m).
        change {| mc_d := mc_d P; mc_b := mc_b P; mc_lower := mc_lower P; mc_upper := mc_upper P;
                  mc_step := mc_step P; mc_maxiter := n; mc_args := with_maxiter n (mc_args P) |}
          with (mc_m P n).
        rewrite <- He. pose proof (mc_inner_grow (mc_m P m) js c s) as Hg.
        destruct (mc_inner (mc_m P m) js c s) as [[c1|e] s1]; cbn [fst] in Hl, Hg.
        * specialize (Hl c1 eq_refl). specialize (Hg c1 eq_refl HB). apply IH; lia.
        * left. exists e, s1. auto.
      + right. change {| mc_d := mc_d P; mc_b := mc_b P; mc_lower := mc_lower P; mc_upper := mc_upper P;
                  mc_step := mc_step P; mc_maxiter := m; mc_args := with_maxiter m (mc_args P) |}
          with (mc_m P m).
        change {| mc_d := mc_d P; mc_b := mc_b P; mc_lower := mc_lower P; mc_upper := mc_upper P;
                  mc_step := mc_step P; mc_maxiter := n; mc_args := with_maxiter n (mc_args P) |}
          with (mc_m P n).
        rewrite He.
        assert (Hstop : mc_outer (mc_m P m) k c1 t = (inl c1, t)).
        { destruct k; cbn [mc_outer]; cbn [mc_m mc_maxiter]; fold (len c1);
            (destruct (Z.ltb_spec (len c1) m); [lia | reflexivity]). }
        rewrite Hstop. exists c1, t. split; [reflexivity|]. split; [exact Hl|].
        destruct Ha as [(rest & Hr) Hc1].
        destruct (mc_inner (mc_m P n) js c s) as [[c2|e] s2]; cbn [fst snd] in *.
        * specialize (Hc1 c2 eq_refl). split.
          -- destruct (disc_mc_outer (mc_m P n) k' c2 s2) as (evs & He2 & _).
             exists (rest ++ evs). rewrite He2, Hr, app_assoc. reflexivity.
          -- intros c' Hc'. eapply longer_trans; [exact Hc1|].
             exact (mc_outer_post (mc_m P n) k' c2 s2 c' Hc').
        * split; [exists rest; exact Hr | discriminate].
  Qed.

  (** ** The claim *)
  (** The longer call does the same up to its m-th sample. *)
  Definition ChainExtends (m1 m2 : M SampRes) : Prop :=
    forall w a0,
      let (r, st) := exec m1 w a0 in
      let (r', st') := exec m2 w a0 in
      match r with
      | inr e => r' = inr e /\ st' = st
      | inl a =>
          (exists rest, tr st' = tr st ++ rest) /\
          forall a', r' = inl a' ->
            match sr_all a, sr_all a' with
            | Some (xs, fs), Some (xs', fs') =>
                (exists u, xs' = xs ++ u) /\ (exists v, fs' = fs ++ v)
            | None, None => True
            | _, _ => False
            end
      end.

  Definition extends (m1 m2 : M SampRes) : Prop := forall s,
    (exists e t, m1 s = (inr e, t) /\ m2 s = (inr e, t)) \/
    (exists a t, m1 s = (inl a, t) /\ (exists rest, tr (snd (m2 s)) = tr t ++ rest) /\
       forall a', fst (m2 s) = inl a' ->
            match sr_all a, sr_all a' with
            | Some (xs, fs), Some (xs', fs') =>
                (exists u, xs' = xs ++ u) /\ (exists v, fs' = fs ++ v)
            | None, None => True
            | _, _ => False
            end).

  Lemma extends_bind {A} (m1 m2 : M A) k1 k2 (Q : A -> A -> Prop) :
    same m1 m2 Q -> (forall a b, Q a b -> extends (k1 a) (k2 b)) -> extends (bind m1 k1) (bind m2 k2).
  Proof.
    intros H Hk s. unfold bind. specialize (H s s eq_refl).
    destruct (m1 s) as [[a|e] t1], (m2 s) as [[b|e'] t2]; cbn in H; destruct H as [<- H];
      try contradiction.
    - apply (Hk _ _ H).
    - subst. left. exists e', t1. auto.
  Qed.

  Lemma extends_Chain m1 m2 : extends m1 m2 -> ChainExtends m1 m2.
  Proof.
    intros H w a0. unfold exec. destruct (H (mkSt w [] a0)) as [(e & t & -> & ->) | (a & t & -> & H1 & H2)].
    - auto.
    - destruct (m2 _) as [r' st']. cbn [fst snd] in *. auto.
  Qed.

  Notation lim1 := (with_maxiter m).
  Notation lim2 := (with_maxiter n).

  Lemma s_first_m a lo hi : s_first (lim1 a) lo hi = s_first (lim2 a) lo hi.
  Proof.
    unfold s_first. cbn [with_maxiter s_maxiter s_x0].
    destruct (Z.ltb_spec m 0); [lia|]. destruct (Z.ltb_spec n 0); [lia|].
    destruct (Z.eqb_spec m 0); [lia|]. destruct (Z.eqb_spec n 0); [lia|]. reflexivity.
  Qed.

  Lemma arange_ne d b : 0 < d -> arange 0 d b <> [].
  Proof.
    intros Hd H. unfold arange in H. destruct d as [|d]; [lia|]. cbn [seq] in H.
    destruct b as [|b]; cbn [filter] in H; [|rewrite Nat.mod_0_l in H by lia]; cbn in H; discriminate.
  Qed.

  Lemma ext_mcmc A : 0 < nd_len (s_bounds (mca A)) ->
    extends (mcmc_sample (mkMCArgs (lim1 (mca A)) (mca_perc A)))
            (mcmc_sample (mkMCArgs (lim2 (mca A)) (mca_perc A))).
  Proof.
    intro Hd. unfold mcmc_sample, mcmc_fuel. cbn [mca mca_perc with_maxiter s_maxiter s_bounds s_return_all].
    eapply extends_bind; [apply same_eq with (m := s_check_x0 (lim1 (mca A))); reflexivity|].
    intros [lo up] ? <-.
    eapply extends_bind; [apply same_eq with (m := s_steps (lim1 (mca A)) lo up); reflexivity|].
    intros steps ? <-.
    eapply extends_bind; [apply same_refl|]. intros u11 v11 _. cbn zeta.
    eapply extends_bind; [apply same_refl|]. intros bk ? <-.
    eapply extends_bind; [apply same_eq with (m := s_seed_cb (lim1 (mca A))); reflexivity|].
    intros u12 v12 _.
    eapply extends_bind; [apply same_eq, (s_first_m (mca A) lo up)|]. intros x ? <-.
    eapply extends_bind; [apply same_refl|]. intros f ? <-.
    eapply extends_bind; [apply same_eq with (m := s_first_cb (lim1 (mca A)) x f); reflexivity|].
    intros u13 v13 _.
    set (P := mkMCParams (nd_len (s_bounds (mca A))) (Z.to_nat (Z.max 1 bk)) lo up steps m (mca A)).
    assert (HB : arange 0 (mc_d P) (mc_b P) <> []) by (apply arange_ne; exact Hd).
    intro s. unfold bind.
    change (mkMCParams (nd_len (s_bounds (mca A))) (Z.to_nat (Z.max 1 bk)) lo up steps m (lim1 (mca A)))
      with (mc_m P m).
    change (mkMCParams (nd_len (s_bounds (mca A))) (Z.to_nat (Z.max 1 bk)) lo up steps n (lim2 (mca A)))
      with (mc_m P n).
    set (c0 := mkChain [x] [f] 0 0 ninf). assert (L0 : len c0 = 1%Z) by reflexivity.
    destruct (mc_outer_chases P HB (Z.to_nat m) (Z.to_nat n) c0) with (s := s)
      as [(e & t & -> & ->) | (c1 & t & -> & Hl & [Hr Ha])]; try lia.
    - left. eauto.
    - right. eexists _, t. split; [reflexivity|].
      destruct (mc_outer (mc_m P n) (Z.to_nat n) c0 s) as [[c2|e] s2]; cbn [fst snd] in *.
      + split; [exact Hr|]. intros a' [= <-]. cbn. destruct (Ha c2 eq_refl) as (u & v & -> & ->).
        destruct (s_return_all (mca A)); eauto.
      + split; [exact Hr | discriminate].
  Qed.

  (** ** hmc *)
  Definition hm_m (P : HMCParams) (k : Z) : HMCParams :=
    mkHMCParams (hm_lower P) (hm_upper P) (hm_step P) (hm_nleap P) (hm_jac P) (hm_fd P) (hm_d P)
                (with_maxiter k (hm_args P)).

  Lemma hmc_move_post P cn : post (hmc_move P cn) (fun cn' => longer (fst cn) (fst cn')).
  Proof.
    destruct cn as [c nf]. unfold hmc_move. eapply post_bind; [apply post_any|]. intros p0 _.
    eapply post_bind; [apply post_any|]. intros [[q p] nf1] _.
    eapply post_bind with (Q := fun cn' => longer c (fst cn')).
    - destruct (in_search_space _ _ _ _); [|apply post_ret, reject_longer].
      eapply post_bind; [apply post_any|]. intros [u0 k0] _.
      eapply post_bind; [apply post_any|]. intros [u1 k1] _.
      eapply post_bind; [apply post_any|]. intros u _. apply post_ret. cbn [fst].
      destruct (metropolis _ _); [apply accept_longer | apply reject_longer].
    - intros [c' nf'] H. eapply post_bind; [apply post_any|]. intros _ _. apply post_ret, H.
  Qed.
  Lemma hmc_loop_post P k : forall cn, post (hmc_loop P k cn) (fun cn' => longer (fst cn) (fst cn')).
  Proof.
    induction k as [|k IH]; intro cn; cbn [hmc_loop]; [apply post_ret, longer_refl|].
    eapply post_bind; [apply hmc_move_post|]. intros c1 H1 s a Ha.
    eapply longer_trans; [exact H1 | exact (IH c1 s a Ha)].
  Qed.

  Lemma hmc_loop_add P j k : forall cn s, hmc_loop P (j + k) cn s =
    match hmc_loop P j cn s with (inl cn', s') => hmc_loop P k cn' s' | (inr e, s') => (inr e, s') end.
  Proof.
    induction j as [|j IH]; intros cn s; cbn [Nat.add hmc_loop]; [reflexivity|].
    unfold bind. destruct (hmc_move P cn s) as [[c1|e] s1]; [apply IH | reflexivity].
  Qed.
  Lemma hmc_loop_m P k : forall cn s, hmc_loop (hm_m P n) k cn s = hmc_loop (hm_m P m) k cn s.
  Proof.
    induction k as [|k IH]; intros cn s; cbn [hmc_loop]; [reflexivity|].
    change (hmc_move (hm_m P n) cn) with (hmc_move (hm_m P m) cn).
    unfold bind. destruct (hmc_move (hm_m P m) cn s) as [[c1|e] s1]; [apply IH | reflexivity].
  Qed.

  Lemma ext_hmc A :
    extends (hmc_sample (mkHMCArgs (lim1 (hma A)) (hma_nleap A) (hma_jac A) (hma_fd A)))
            (hmc_sample (mkHMCArgs (lim2 (hma A)) (hma_nleap A) (hma_jac A) (hma_fd A))).
  Proof.
    unfold hmc_sample.
    cbn [hma hma_nleap hma_jac hma_fd with_maxiter s_maxiter s_bounds s_return_all].
    eapply extends_bind; [apply same_eq with (m := s_check_x0 (lim1 (hma A))); reflexivity|].
    intros [lo up] ? <-.
    eapply extends_bind; [apply same_refl|]. intros u14 v14 _.
    eapply extends_bind; [apply same_eq with (m := s_steps (lim1 (hma A)) lo up); reflexivity|].
    intros steps ? <-.
    eapply extends_bind; [apply same_refl|]. intros u15 v15 _.
    eapply extends_bind; [apply same_eq with (m := s_seed_cb (lim1 (hma A))); reflexivity|].
    intros u16 v16 _.
    eapply extends_bind; [apply same_eq, (s_first_m (hma A) lo up)|]. intros x ? <-.
    eapply extends_bind; [apply same_refl|]. intros [f nf] ? <-.
    eapply extends_bind; [apply same_eq with (m := s_first_cb (lim1 (hma A)) x f); reflexivity|].
    intros u17 v17 _. cbn zeta.
    set (P := mkHMCParams lo up steps (Z.to_nat (hma_nleap A)) (hma_jac A) (hma_fd A)
                          (nd_len (s_bounds (hma A))) (hma A)).
    intro s. unfold bind.
    change (mkHMCParams lo up steps (Z.to_nat (hma_nleap A)) (hma_jac A) (hma_fd A)
                        (nd_len (s_bounds (hma A))) (lim1 (hma A))) with (hm_m P m).
    change (mkHMCParams lo up steps (Z.to_nat (hma_nleap A)) (hma_jac A) (hma_fd A)
                        (nd_len (s_bounds (hma A))) (lim2 (hma A))) with (hm_m P n).
    set (c0 := (mkChain [x] [f] 0 0 ninf, nf)).
    replace (Z.to_nat n - 1) with (Z.to_nat m - 1 + (Z.to_nat n - Z.to_nat m)) by lia.
    rewrite hmc_loop_m, hmc_loop_add.
    pose proof (hmc_loop_post (hm_m P m) (Z.to_nat m - 1) c0 s) as HP.
    destruct (hmc_loop (hm_m P m) (Z.to_nat m - 1) c0 s) as [[[c1 k1]|e] s1]; [|left; eauto].
    destruct (HP _ eq_refl) as (u & v & H1 & H2). cbn [fst ch_x ch_f c0] in H1, H2.
    unfold np_argmin. rewrite H2. cbn [app]. right. eexists _, s1. split; [reflexivity|].
    pose proof (hmc_loop_post (hm_m P m) (Z.to_nat n - Z.to_nat m) (c1, k1) s1) as HP2.
    pose proof (disc_hmc_loop (hm_m P m) (Z.to_nat n - Z.to_nat m) (c1, k1) s1) as HD.
    destruct (hmc_loop (hm_m P m) (Z.to_nat n - Z.to_nat m) (c1, k1) s1) as [[[c2 k2]|e] s2];
      cbn [fst snd] in HD.
    - destruct (HP2 _ eq_refl) as (u' & v' & H3 & H4). cbn [fst] in H3, H4. rewrite H4, H2.
      cbn [app]. destruct HD as (evs & He & _). split; [exists evs; exact He|].
      cbn [fst]. intros a' [= <-]. cbn. rewrite H3.
      destruct (s_return_all (hma A)); [|exact I]. split; eexists; reflexivity.
    - destruct HD as (evs & He & _). split; [exists evs; exact He | discriminate].
  Qed.
End Samp.

Section Claims.
  Context {N : Num} {E : Env N}.

  Lemma own_s a : with_maxiter (s_maxiter a) a = a.
  Proof. destruct a; reflexivity. Qed.

  (** A larger maxiter: same samples, same evaluations and same callbacks, then more of them. *)
  Theorem C63_mcmc A n : 0 < nd_len (s_bounds (mca A)) -> (1 <= s_maxiter (mca A) <= n)%Z ->
    ChainExtends (mcmc_sample A) (mcmc_sample (mkMCArgs (with_maxiter n (mca A)) (mca_perc A))).
  Proof.
    intros Hd H. apply extends_Chain.
    replace (mcmc_sample A) with (mcmc_sample (mkMCArgs (with_maxiter (s_maxiter (mca A)) (mca A)) (mca_perc A)))
      by (rewrite own_s; destruct A; reflexivity).
    apply ext_mcmc; assumption.
  Qed.

  Theorem C63_hmc A n : (1 <= s_maxiter (hma A) <= n)%Z ->
    ChainExtends (hmc_sample A)
                 (hmc_sample (mkHMCArgs (with_maxiter n (hma A)) (hma_nleap A) (hma_jac A) (hma_fd A))).
  Proof.
    intros H. apply extends_Chain.
    replace (hmc_sample A) with (hmc_sample (mkHMCArgs (with_maxiter (s_maxiter (hma A)) (hma A))
                                               (hma_nleap A) (hma_jac A) (hma_fd A)))
      by (rewrite own_s; destruct A; reflexivity).
    apply ext_hmc; assumption.
  Qed.
End Claims.
