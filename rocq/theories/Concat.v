(** C81: two chains one after the other are one chain.  With an objective and a callback without
    memory, a sampler called with [x0] = the last sample of a chain, in the random state which that
    chain left, continues the chain. *)
From Verif Require Import Base Num Env Common DE Sample Rel Hoare Limits LimitsSamp Mcmc Resume.

(** ** Specification *)
Section Spec.
  Context {N : Num} {E : Env N}.

  Definition SMemoryless (g : vec -> T) : Prop :=
    (forall x w, e_fun x w = (inl (g x), w)) /\ (forall x st w, e_scb x st w = (None, w)).

  (** the call that starts at [x], without seed *)
  Definition starting (x : vec) (a : SArgs) : SArgs :=
    mkSArgs (s_callable a) (s_bounds a) (Some (D1 x)) (s_maxiter a) (s_stepsize a) (s_stepsize_array a)
            None (s_constraints a) (s_return_all a) (s_callback a).

  (** [rl] is the result of the long chain, [r1] and [rr] (starting at [x]) those of its parts:
      the samples and values are put together at [x], which occurs once; accepted moves add up. *)
  Definition Joined (n m : Z) (x : vec) (r1 rr rl : SampRes) : Prop :=
    exists X1 F1 X2 F2 f a1 a2,
      sr_all r1 = Some (X1 ++ [x], F1 ++ [f]) /\ sr_all rr = Some (x :: X2, f :: F2) /\
      sr_all rl = Some (X1 ++ x :: X2, F1 ++ f :: F2) /\
      sr_accept r1 = ndiv (nZ a1) (nZ n) /\ sr_accept rr = ndiv (nZ a2) (nZ m) /\
      sr_accept rl = ndiv (nZ (a1 + a2)) (nZ (n + m - 1)) /\
      match sr_nfev r1, sr_nfev rr, sr_nfev rl with
      | Some k1, Some k2, Some k => k = (k1 + k2 - 1)%Z
      | None, None, None => True
      | _, _, _ => False
      end.
  Definition Continued (g : vec -> T) (n m : Z) (x : vec) (r1 : SampRes) (s1 : St)
      (long rest : (SampRes + Exn) * St) : Prop :=
    rs (snd long) = rs (snd rest) /\
    (exists l, evals (tr (snd long)) = evals (tr s1) ++ l /\ evals (tr (snd rest)) = (x, g x) :: l) /\
    match fst long, fst rest with
    | inl rl, inl rr => Joined n m x r1 rr rl
    | inr e, inr e' => e = e'
    | _, _ => False
    end.
End Spec.

Section Concat.
  Context {N : Num} {E : Env N}.
  Variable g : vec -> T.
  Hypothesis HM : SMemoryless g.

  Lemma call_g x s : call_fun x s = (inl (g x), mkSt (rs s) (tr s ++ [EEval x (inl (g x))]) (argbuf s)).
  Proof. unfold call_fun. rewrite (proj1 HM). reflexivity. Qed.
  Lemma post_call x : post (call_fun x) (fun v => v = g x).
  Proof. intros s a. rewrite call_g. cbn. congruence. Qed.
  Lemma post_raise_if c e : post (raise_if c e) (fun _ => c = false).
  Proof. intros s a. destruct c; cbn; [discriminate|auto]. Qed.

  Lemma rel_foldM_K {A A' B} R (K : A -> A' -> Prop) (f1 : A -> B -> M A) (f2 : A' -> B -> M A') l :
    (forall a b x, K a b -> rel R (f1 a x) (f2 b x) K) ->
    forall a b, K a b -> rel R (foldM f1 a l) (foldM f2 b l) K.
  Proof.
    intro H. induction l as [|x l IH]; intros a b HK; cbn; [apply rel_ret, HK|].
    eapply rel_bind; [apply H, HK|]. intros. apply IH. assumption.
  Qed.

  (** ** Related states *)
  Variables e1 e2 : list (vec * T).
  Definition Rs (s1 s2 : St) : Prop :=
    rs s1 = rs s2 /\ exists l, evals (tr s1) = e1 ++ l /\ evals (tr s2) = e2 ++ l.
  Notation relS := (@rel N E E Rs).

  Lemma Rs_closed : Closed Rs.
  Proof.
    intros s1 s2 (H1 & l & H2 & H3). split; [exact H1|]. split.
    - intro w. split; [reflexivity|]. exists l. auto.
    - intros w x y. split; [reflexivity|]. destruct y as [y|y].
      + exists (l ++ [(x, y)]). cbn. rewrite !evals_app, H2, H3, !app_assoc. auto.
      + exists l. cbn. rewrite !evals_app, H2, H3. cbn. rewrite !app_nil_r. auto.
  Qed.
  Lemma R_call x : relS (call_fun x) (call_fun x) eq.
  Proof.
    intros s1 s2 H. destruct (Rs_closed _ _ H) as (H1 & _ & H3). rewrite !call_g. cbn.
    rewrite <- H1. split; [apply H3|reflexivity].
  Qed.
  Lemma R_scb x c x' c' : relS (call_scb x c) (call_scb x' c') eq.
  Proof.
    intros s1 s2 (H1 & l & H2 & H3). unfold call_scb. rewrite !(proj2 HM). cbn.
    split; [|reflexivity]. split; [exact H1|]. exists l. cbn.
    rewrite !evals_app, H2, H3. cbn. rewrite !app_nil_r. auto.
  Qed.
  Lemma R_randn_vec d : relS (randn_vec d) (randn_vec d) eq.
  Proof. apply rel_replicateM. exact (s_draw Rs Rs_closed e_randn). Qed.
  Lemma R_rand : relS rand rand eq.
  Proof. exact (s_rand Rs Rs_closed). Qed.

  (** ** Chains *)
  Variables (d : nat) (X1 : matrix) (F1 : vec) (a1 : Z).
  (** the rest of the long chain is the short one *)
  Definition Tail (c c2 : Chain) : Prop :=
    ch_x c = X1 ++ ch_x c2 /\ ch_f c = F1 ++ ch_f c2 /\ ch_acc c = (a1 + ch_acc c2)%Z /\
    0 < length (ch_x c2) /\ 0 < length (ch_f c2).
  Lemma Tail_last_x c c2 : Tail c c2 -> ch_last_x c = ch_last_x c2.
  Proof.
    intros (H1 & _ & _ & H2 & _). unfold ch_last_x. rewrite H1, app_length, app_nth2 by lia. f_equal. lia.
  Qed.
  Lemma Tail_last_f c c2 : Tail c c2 -> ch_last_f c = ch_last_f c2.
  Proof.
    intros (_ & H1 & _ & _ & H2). unfold ch_last_f. rewrite H1, app_length, app_nth2 by lia. f_equal. lia.
  Qed.
  Lemma Tail_accept c c2 x f : Tail c c2 -> Tail (ch_accept c x f) (ch_accept c2 x f).
  Proof.
    intros (H1 & H2 & H3 & H4 & H5). unfold ch_accept.
    destruct (nltb f (ch_fmin c)), (nltb f (ch_fmin c2)); unfold Tail; cbn;
      rewrite H1, H2, H3, !app_length, !app_assoc; repeat split; cbn; lia.
  Qed.
  Lemma Tail_reject c c2 : Tail c c2 -> Tail (ch_reject c) (ch_reject c2).
  Proof.
    intro H. pose proof (Tail_last_x _ _ H) as Hx. pose proof (Tail_last_f _ _ H) as Hf.
    destruct H as (H1 & H2 & H3 & H4 & H5). unfold Tail, ch_reject. cbn.
    rewrite Hx, Hf, H1, H2, H3, !app_length, !app_assoc. repeat split; cbn; lia.
  Qed.
  Lemma R_s_cb a a' c c' : s_has_cb a = s_has_cb a' -> relS (s_cb a c) (s_cb a' c') eq.
  Proof. intro H. unfold s_cb. rewrite <- H. apply rel_when, R_scb. Qed.

  (** A chain of points of dimension [d] with their values. *)
  Definition Sound (c : Chain) : Prop :=
    ch_f c = map g (ch_x c) /\ 0 < length (ch_x c) /\ Forall (fun x => length x = d) (ch_x c).
  Lemma Sound_last c : Sound c -> length (ch_last_x c) = d /\ ch_last_f c = g (ch_last_x c).
  Proof.
    intros (H1 & H2 & H3). unfold ch_last_x, ch_last_f. split.
    - rewrite Forall_forall in H3. apply H3, nth_In. lia.
    - rewrite H1, map_length. rewrite (nth_indep _ n0 (g [])) by (rewrite map_length; lia). apply map_nth.
  Qed.
  Lemma Sound_accept c x : Sound c -> length x = d -> Sound (ch_accept c x (g x)).
  Proof.
    intros (H1 & H2 & H3) Hx. unfold ch_accept. destruct (if nltb _ _ then _ else _) as [i f].
    unfold Sound. cbn. rewrite H1, map_app, app_length. repeat split; [lia|].
    apply Forall_app. split; [exact H3|]. repeat constructor. exact Hx.
  Qed.
  Lemma Sound_reject c : Sound c -> Sound (ch_reject c).
  Proof.
    intro H. destruct (Sound_last c H) as [L1 L2]. destruct H as (H1 & H2 & H3).
    unfold ch_reject, Sound. cbn. rewrite H1, map_app, app_length, L2. repeat split; [lia|].
    apply Forall_app. split; [exact H3|]. repeat constructor. exact L1.
  Qed.

  (** ** mcmc *)
  Section MC.
    Variables (b : nat) (lo up steps : vec) (a : SArgs).
    Hypothesis Hst : length steps = d.
    Definition QM (m : Z) (x0 : SArgs -> SArgs) : MCParams := mkMCParams d b lo up steps m (x0 (with_maxiter m a)).
    Notation Plong m := (QM m (fun a => a)).
    Notation Prest x m := (QM m (starting x)).

    Lemma sound_move P j c : mc_d P = d -> mc_step P = steps -> Sound c ->
      post (mc_move P j c) (fun c' => Sound c' /\ len c' = (len c + 1)%Z).
    Proof.
      intros Hd Hs Hc. unfold mc_move.
      assert (HL : forall y, length y = d -> Sound (ch_accept c y (g y)) /\ len (ch_accept c y (g y)) = (len c + 1)%Z).
      { intros y Hy. split; [apply Sound_accept; assumption|apply accept_longer]. }
      assert (HR : Sound (ch_reject c) /\ len (ch_reject c) = (len c + 1)%Z).
      { split; [apply Sound_reject, Hc|apply reject_longer]. }
      eapply post_bind with (Q := fun y => length y = d).
      - destruct (Sound_last c Hc) as [Hx _]. unfold mc_propose. rewrite Hd, Hs. cbn zeta.
        set (x := ch_last_x c) in *. set (jm := Nat.min d (j + mc_b P - 1)).
        assert (Hz : post (randn_vec (jm - j + 1)) (fun z => length z = jm - j + 1)).
        { intros s z. destruct (randn_vec (jm - j + 1) s) as [[z'|] s'] eqn:Ez; cbn; [|discriminate].
          intros [= <-]. unfold randn_vec in Ez. eapply replicateM_len, Ez. }
        eapply post_bind; [exact Hz|]. intros z Hzl. cbv beta in Hzl.
        eapply post_bind; [apply post_raise_if|]. intros u Hu. cbv beta in Hu.
        apply negb_false_iff, Nat.eqb_eq in Hu. apply post_ret.
        clearbody jm x. unfold slice in *. rewrite firstn_length, skipn_length, Hst in Hu.
        unfold vadd, vmul. rewrite !app_length, !map2_length, !firstn_length, !skipn_length, Hst.
        unfold matrix, vec in *. lia.
      - intros y Hy. eapply post_bind with (Q := fun c' => Sound c' /\ len c' = (len c + 1)%Z).
        + destruct (in_search_space _ _ _ _); [|apply post_ret, HR].
          eapply post_bind; [apply post_call|]. intros fy ->.
          eapply post_bind; [apply post_any|]. intros u _. apply post_ret.
          destruct (metropolis _ _); auto.
        + intros c' Hc'. eapply post_bind; [apply post_any|]. intros _ _. apply post_ret, Hc'.
    Qed.

    Lemma R_move x n m j c c2 : Tail c c2 ->
      relS (mc_move (Plong n) j c) (mc_move (Prest x m) j c2) Tail.
    Proof.
      intro HT. unfold mc_move. rewrite (Tail_last_x _ _ HT), (Tail_last_f _ _ HT).
      eapply rel_bind with (Q := eq).
      - unfold mc_propose. cbn [mc_d mc_b mc_step QM]. cbn zeta.
        eapply rel_bind; [apply R_randn_vec|]. intros z ? <-.
        eapply rel_bind; [apply rel_raise_if|]. intros _ _ _. apply rel_ret. reflexivity.
      - intros y ? <-. cbn [mc_lower mc_upper mc_args QM s_constraints with_maxiter starting].
        eapply rel_bind with (Q := Tail).
        + destruct (in_search_space _ _ _ _); [|apply rel_ret, Tail_reject, HT].
          eapply rel_bind; [apply R_call|]. intros fy ? <-.
          eapply rel_bind; [apply R_rand|]. intros u ? <-. apply rel_ret.
          destruct (metropolis _ _); [apply Tail_accept|apply Tail_reject]; exact HT.
        + intros c' c2' H. eapply rel_bind; [apply R_s_cb; reflexivity|]. intros _ _ _. apply rel_ret, H.
    Qed.

    Variable n : Z.
    Hypothesis Hn : Z.of_nat (length X1) = (n - 1)%Z.
    Lemma Tail_len c c2 : Tail c c2 -> len c = (len c2 + (n - 1))%Z.
    Proof. intros (H & _). unfold len. rewrite H, app_length. lia. Qed.

    Lemma R_inner x m js : forall c c2, Tail c c2 ->
      relS (mc_inner (Plong (n + m - 1)) js c) (mc_inner (Prest x m) js c2)
           (fun c' c2' => Tail c' c2').
    Proof.
      induction js as [|j js IH]; intros c c2 HT; cbn [mc_inner]; [apply rel_ret, HT|].
      eapply rel_bind; [apply R_move, HT|]. intros c' c2' HT'.
      unfold mc_full. cbn [mc_maxiter QM]. fold (len c') (len c2'). rewrite (Tail_len _ _ HT').
      destruct (Z.eqb_spec (len c2' + (n - 1)) (n + m - 1)), (Z.eqb_spec (len c2') m); try lia;
        [apply rel_ret, HT'|apply IH, HT'].
    Qed.

    Lemma R_outer x m : arange 0 d b <> [] -> forall k k1 k2 c c2, Tail c c2 ->
      (m - len c2 <= Z.of_nat k)%Z -> k <= k1 -> k <= k2 ->
      relS (mc_outer (Plong (n + m - 1)) k1 c) (mc_outer (Prest x m) k2 c2) Tail.
    Proof.
      intro HB. induction k as [|k IH]; intros k1 k2 c c2 HT Hk H1 H2.
      - assert (G1 : mc_outer (Plong (n + m - 1)) k1 c = ret c).
        { destruct k1; cbn [mc_outer]; cbn [mc_maxiter QM]; fold (len c); rewrite (Tail_len _ _ HT);
            (destruct (Z.ltb_spec (len c2 + (n - 1)) (n + m - 1)); [lia|reflexivity]). }
        assert (G2 : mc_outer (Prest x m) k2 c2 = ret c2).
        { destruct k2; cbn [mc_outer]; cbn [mc_maxiter QM]; fold (len c2);
            (destruct (Z.ltb_spec (len c2) m); [lia|reflexivity]). }
        rewrite G1, G2. apply rel_ret, HT.
      - destruct k1 as [|k1]; [lia|]. destruct k2 as [|k2]; [lia|]. cbn [mc_outer].
        cbn [mc_maxiter mc_d mc_b QM]. fold (len c) (len c2). rewrite (Tail_len _ _ HT).
        destruct (Z.ltb_spec (len c2 + (n - 1)) (n + m - 1)), (Z.ltb_spec (len c2) m); try lia;
          [|apply rel_ret, HT].
        eapply rel_bind with (Q := fun c' c2' => Tail c' c2' /\ (len c2 < len c2')%Z).
        + intros s1 s2 HR. destruct (R_inner x m (arange 0 d b) c c2 HT s1 s2 HR) as [Q1 Q2].
          split; [exact Q1|]. 
          pose proof (mc_inner_grow (Prest x m) (arange 0 d b) c2 s2) as Hg.
          destruct (fst (mc_inner (Plong (n + m - 1)) (arange 0 d b) c s1)),
                   (fst (mc_inner (Prest x m) (arange 0 d b) c2 s2)); auto.
        + intros c' c2' [HT' Hl]. apply IH; [exact HT'|lia|lia|lia].
    Qed.

    (** ** The long run passes through the end of the short one *)
    Lemma inner_same m js : forall c s c1 s1, (1 <= m)%Z -> Sound c ->
      (len c + Z.of_nat (length js) <= n)%Z -> (len c < n)%Z ->
      mc_inner (Plong n) js c s = (inl c1, s1) ->
      mc_inner (Plong (n + m - 1)) js c s = (inl c1, s1) /\ Sound c1 /\
      len c1 = (len c + Z.of_nat (length js))%Z.
    Proof.
      induction js as [|j js IH]; intros c s c1 s1 Hm Hc Hl Hlt H; cbn [mc_inner] in *.
      - inversion H. subst. cbn. repeat split; try apply Hc. lia.
      - apply bind_inl in H. destruct H as (c' & s' & H1 & H).
        assert (H1' : mc_move (Plong (n + m - 1)) j c s = (inl c', s')) by exact H1.
        rewrite (bind_eq _ _ _ _ _ H1').
        destruct (sound_move (Plong n) j c eq_refl eq_refl Hc s c') as [Hs Hlen]; [rewrite H1; reflexivity|].
        unfold mc_full in *. cbn [mc_maxiter QM] in *. fold (len c') in *. cbn [length] in *.
        destruct (Z.eqb_spec (len c') n) as [Ef|Ef].
        + inversion H. subst c' s'. destruct js; [|cbn [length] in *; lia]. cbn [mc_inner length].
          split; [destruct (_ =? _)%Z; reflexivity|]. split; [exact Hs|lia].
        + destruct (Z.eqb_spec (len c') (n + m - 1)); [lia|].
          destruct (IH c' s' c1 s1 Hm Hs ltac:(lia) ltac:(lia) H) as (G1 & G2 & G3).
          split; [exact G1|]. split; [exact G2|lia].
    Qed.

    Lemma outer_same m : (1 <= m)%Z -> arange 0 d b <> [] -> forall k q c s c1 s1 kl, Sound c ->
      n = (len c + q * Z.of_nat (length (arange 0 d b)))%Z -> (0 <= q)%Z ->
      mc_outer (Plong n) k c s = (inl c1, s1) -> (n + m - 1 - len c <= Z.of_nat kl)%Z ->
      exists kl', mc_outer (Plong (n + m - 1)) kl c s = mc_outer (Plong (n + m - 1)) kl' c1 s1 /\
        Sound c1 /\ len c1 = n /\ (m - 1 <= Z.of_nat kl')%Z.
    Proof.
      intros Hm HB. induction k as [|k IH]; intros q c s c1 s1 kl Hc Hq Hq0 H Hkl;
        cbn [mc_outer] in H; cbn [mc_maxiter QM mc_d mc_b] in H; fold (len c) in H;
        destruct (Z.ltb_spec (len c) n) as [Hlt|Hlt]; try discriminate.
      all: assert (Hql : (0 <= q * Z.of_nat (length (arange 0 d b)))%Z) by (apply Z.mul_nonneg_nonneg; lia).
      1,3: inversion H; subst c1 s1; exists kl; assert (len c = n) by lia;
        (split; [reflexivity|]); (split; [exact Hc|]); split; lia.
      apply bind_inl in H. destruct H as (c' & s' & H1 & H).
      assert (Hq1 : (1 <= q)%Z) by (destruct (Z.eq_dec q 0) as [->|]; [cbn in Hq; lia|lia]).
      assert (Hpos : (0 < length (arange 0 d b))%nat) by (destruct (arange 0 d b); [congruence|cbn; lia]).
      destruct (inner_same m (arange 0 d b) c s c' s' Hm Hc ltac:(nia) Hlt H1) as (G1 & G2 & G3).
      destruct kl as [|kl]; [lia|].
      destruct (IH (q - 1)%Z c' s' c1 s1 kl G2 ltac:(nia) ltac:(lia) H ltac:(lia)) as (kl' & P1 & P2 & P3 & P4).
      exists kl'. split; [|auto]. rewrite <- P1. cbn [mc_outer]. cbn [mc_maxiter QM mc_d mc_b]. fold (len c).
      destruct (Z.ltb_spec (len c) (n + m - 1)); [|lia]. apply bind_eq. exact G1.
    Qed.
  End MC.

  (** ** hmc *)
  Section HMC.
    Variables (lo up steps : vec) (nl : nat) (jac : JacArg) (fd : T) (a : SArgs).
    Hypothesis Hst : length steps = d.
    Definition QH (m : Z) (x0 : SArgs -> SArgs) : HMCParams :=
      mkHMCParams lo up steps nl jac fd d (x0 (with_maxiter m a)).
    Notation Plong m := (QH m (fun a => a)).
    Notation Prest x m := (QH m (starting x)).

    Lemma post_jac nf q : post (hmc_jac jac fd nf q) (fun r => length (fst r) = length q).
    Proof.
      assert (H : post (numerical_gradient fd nf q) (fun r => length (fst r) = length q)).
      { unfold numerical_gradient.
        assert (HG : forall l x1 x2 g0 nf0, post (foldM (ng_one fd) (x1, x2, g0, nf0) l)
                  (fun r => length (snd (fst r)) = length g0 + length l)).
        { induction l as [|i l IH]; intros x1 x2 g0 nf0; cbn [foldM length].
          - apply post_ret. cbn. lia.
          - eapply post_bind with (Q := fun r => length (snd (fst r)) = length g0 + 1).
            + unfold ng_one. eapply post_bind; [apply post_any|]. intros [f2 nf2] _.
              eapply post_bind; [apply post_any|]. intros [f1 nf1] _. apply post_ret. cbn.
              rewrite app_length. cbn. lia.
            + intros [[[y1 y2] g1] nf1] Hg. cbn in Hg. intros s r Hr.
              rewrite (IH y1 y2 g1 nf1 s r Hr). lia. }
        eapply post_bind; [apply HG|]. intros [[[y1 y2] g1] nf1] Hg. cbn in Hg.
        apply post_ret. cbn. rewrite map_length, Hg, seq_length. reflexivity. }
      unfold hmc_jac. destruct jac; try exact H. intros s r Hr. discriminate.
    Qed.

    Lemma sound_hmove P c nf : hm_d P = d -> hm_step P = steps -> hm_jac P = jac -> hm_fd P = fd -> Sound c ->
      post (hmc_move P (c, nf)) (fun r => Sound (fst r) /\ len (fst r) = (len c + 1)%Z).
    Proof.
      intros Hd Hs Hj Hf Hc. unfold hmc_move. rewrite Hd, Hs, Hj, Hf.
      assert (HR : Sound (ch_reject c) /\ len (ch_reject c) = (len c + 1)%Z).
      { split; [apply Sound_reject, Hc|apply reject_longer]. }
      destruct (Sound_last c Hc) as [Hx _]. set (q0 := ch_last_x c) in *.
      assert (Hz : post (randn_vec d) (fun z => length z = d)).
      { intros s z. destruct (randn_vec d s) as [[z'|] s'] eqn:Ez; cbn; [|discriminate].
        intros [= <-]. unfold randn_vec in Ez. eapply replicateM_len, Ez. }
      eapply post_bind; [exact Hz|]. intros p0 Hp. cbv beta in Hp.
      eapply post_bind with (Q := fun r => length (fst (fst r)) = d).
      { unfold leapfrog. eapply post_bind; [apply post_jac|]. intros [g0 nf0] Hg. cbn [fst] in Hg. cbn zeta.
        eapply post_bind with (Q := fun r => length (fst (fst r)) = d).
        - assert (HL : forall k q p nf, length q = d -> length p = d ->
             post (leap_loop (hmc_jac jac fd) steps k q p nf) (fun r => length (fst (fst r)) = d)).
          { induction k as [|k IH]; intros q p nf' Hq Hp'; cbn [leap_loop]; [apply post_ret; exact Hq|].
            eapply post_bind; [apply post_jac|]. intros [g1 nf1] Hg1. cbn [fst] in Hg1.
            assert (Hk : length (kick steps p g1) = d)
              by (unfold kick, vsub, vmul; rewrite !map2_length; unfold matrix, vec in *; lia).
            apply IH; [|exact Hk].
            unfold drift, vadd, vmul. rewrite !map2_length. unfold matrix, vec in *. lia. }
          assert (Hk : length (half_kick steps p0 g0) = d)
            by (unfold half_kick, vsub; rewrite !map2_length; unfold matrix, vec in *; lia).
          apply HL; [|exact Hk]. unfold drift, vadd, vmul. rewrite !map2_length. unfold matrix, vec in *. lia.
        - intros [[q p] nf1] Hq. cbn [fst] in Hq. eapply post_bind; [apply post_any|].
          intros [g1 nf2] _. apply post_ret. exact Hq. }
      intros [[q p] nf1] Hq. cbn [fst] in Hq.
      eapply post_bind with (Q := fun r => Sound (fst r) /\ len (fst r) = (len c + 1)%Z).
      - destruct (in_search_space _ _ _ _); [|apply post_ret, HR].
        eapply post_bind; [apply post_any|]. intros [U0 nf2] _.
        eapply post_bind with (Q := fun r => fst r = g q).
        { unfold count_fun. eapply post_bind; [apply post_call|]. intros y ->. apply post_ret. reflexivity. }
        intros [U nf3] HU. cbn [fst] in HU. subst U.
        eapply post_bind; [apply post_any|]. intros u _. apply post_ret. cbn [fst].
        destruct (metropolis _ _); [|exact HR].
        split; [apply Sound_accept; assumption|apply accept_longer].
      - intros [c' nf'] Hc'. eapply post_bind; [apply post_any|]. intros _ _. apply post_ret, Hc'.
    Qed.

    Variable off : Z.
    Lemma R_count nf nf' q : nf = (nf' + off)%Z ->
      relS (count_fun nf q) (count_fun nf' q) (fun u v => fst u = fst v /\ snd u = (snd v + off)%Z).
    Proof.
      clear Hst. intros ->. unfold count_fun. eapply rel_bind; [apply R_call|]. intros y ? <-. apply rel_ret.
      cbn. split; [reflexivity|lia].
    Qed.
    Lemma R_jac nf nf' q : nf = (nf' + off)%Z ->
      relS (hmc_jac jac fd nf q) (hmc_jac jac fd nf' q) (fun u v => fst u = fst v /\ snd u = (snd v + off)%Z).
    Proof.
      clear Hst. intro Hnf.
      assert (H : relS (numerical_gradient fd nf q) (numerical_gradient fd nf' q)
                       (fun u v => fst u = fst v /\ snd u = (snd v + off)%Z)).
      { unfold numerical_gradient.
        eapply rel_bind with (Q := fun u v => fst u = fst v /\ snd u = (snd v + off)%Z).
        - apply rel_foldM_K; [|split; [reflexivity|exact Hnf]].
          intros [[[x1 x2] g0] n0'] [[[y1 y2] h0] n1'] i [H1 H2]. cbn [fst snd] in H1, H2.
          injection H1 as <- <- <-. unfold ng_one.
          eapply rel_bind; [apply R_count, H2|]. intros [f2 k2] [? k2'] [H3 H4]. cbn [fst snd] in *. subst.
          eapply rel_bind; [apply R_count; reflexivity|]. intros [f1 k1] [? k1'] [H3 H4]. cbn [fst snd] in *. subst.
          apply rel_ret. cbn. auto.
        - intros [[[x1 x2] g0] n0'] [[[y1 y2] h0] n1'] [H1 H2]. cbn [fst snd] in H1, H2.
          injection H1 as <- <- <-. apply rel_ret. cbn. auto. }
      unfold hmc_jac. destruct jac; try exact H. apply rel_raise.
    Qed.
    Definition Moved3 (u v : vec * vec * Z) : Prop := fst u = fst v /\ snd u = (snd v + off)%Z.
    Lemma R_leap q p nf nf' : nf = (nf' + off)%Z ->
      relS (leapfrog (hmc_jac jac fd) steps nl q p nf) (leapfrog (hmc_jac jac fd) steps nl q p nf') Moved3.
    Proof.
      clear Hst. intro Hnf. unfold leapfrog.
      eapply rel_bind; [apply R_jac, Hnf|]. intros [g0 k0] [? k0'] [H1 H2]. cbn [fst snd] in *. subst.
      cbn zeta. eapply rel_bind with (Q := Moved3).
      - assert (HL : forall k q p nf nf', nf = (nf' + off)%Z ->
           relS (leap_loop (hmc_jac jac fd) steps k q p nf) (leap_loop (hmc_jac jac fd) steps k q p nf') Moved3).
        { induction k as [|k IH]; intros q' p' m1 m2 Hm; cbn [leap_loop].
          - apply rel_ret. split; [reflexivity|exact Hm].
          - eapply rel_bind; [apply R_jac, Hm|]. intros [g1 k1] [? k1'] [H1 H2]. cbn [fst snd] in *. subst.
            apply IH. reflexivity. }
        apply HL. reflexivity.
      - intros [[q1 p1] k1] [[? ?] k1'] [H1 H2]. cbn [fst snd] in H1, H2. injection H1 as <- <-. subst.
        eapply rel_bind; [apply R_jac; reflexivity|]. intros [g1 k2] [? k2'] [H3 H4]. cbn [fst snd] in *. subst.
        apply rel_ret. split; reflexivity.
    Qed.

    Definition TailN (u v : Chain * Z) : Prop := Tail (fst u) (fst v) /\ snd u = (snd v + off)%Z.
    Lemma R_hmove x n m u v : TailN u v -> relS (hmc_move (Plong n) u) (hmc_move (Prest x m) v) TailN.
    Proof.
      clear Hst. destruct u as [c nf], v as [c2 nf2]. intros [HT Hnf]. cbn [fst snd] in *.
      unfold hmc_move. rewrite (Tail_last_x _ _ HT). cbn [hm_d hm_jac hm_fd hm_step hm_nleap QH].
      eapply rel_bind; [apply R_randn_vec|]. intros p0 ? <-.
      eapply rel_bind; [apply R_leap, Hnf|]. intros [[q p] k] [[? ?] k'] [H1 H2]. cbn [fst snd] in H1, H2.
      injection H1 as <- <-.
      eapply rel_bind with (Q := TailN).
      - cbn [hm_lower hm_upper hm_args QH s_constraints with_maxiter starting].
        destruct (in_search_space _ _ _ _); [|apply rel_ret; split; [apply Tail_reject, HT|exact H2]].
        eapply rel_bind; [apply R_count, H2|]. intros [U0 k0] [? k0'] [H3 H4]. cbn [fst snd] in *. subst.
        eapply rel_bind; [apply R_count; reflexivity|]. intros [U k1] [? k1'] [H5 H6]. cbn [fst snd] in *. subst.
        eapply rel_bind; [apply R_rand|]. intros r ? <-. apply rel_ret. split; [|reflexivity]. cbn [fst].
        destruct (metropolis _ _); [apply Tail_accept|apply Tail_reject]; exact HT.
      - intros [c' k1] [c2' k1'] H. eapply rel_bind; [apply R_s_cb; reflexivity|]. intros _ _ _. apply rel_ret, H.
    Qed.
    Lemma R_hloop x n m k : forall u v, TailN u v -> relS (hmc_loop (Plong n) k u) (hmc_loop (Prest x m) k v) TailN.
    Proof.
      induction k as [|k IH]; intros u v H; cbn [hmc_loop]; [apply rel_ret, H|].
      eapply rel_bind; [apply R_hmove, H|]. intros u' v' H'. apply IH, H'.
    Qed.

    Lemma hloop_add n m k k' : forall u s,
      hmc_loop (Plong m) (k + k') u s = bind (hmc_loop (Plong n) k u) (hmc_loop (Plong m) k') s.
    Proof.
      induction k as [|k IH]; intros u s; cbn [hmc_loop plus]; [reflexivity|].
      change (hmc_move (Plong m) u) with (hmc_move (Plong n) u).
      unfold bind. destruct (hmc_move (Plong n) u s) as [[u'|e] s']; [|reflexivity].
      specialize (IH u' s'). unfold bind in IH. exact IH.
    Qed.
    Lemma sound_hloop n k : forall c nf, Sound c ->
      post (hmc_loop (Plong n) k (c, nf)) (fun r => Sound (fst r) /\ len (fst r) = (len c + Z.of_nat k)%Z).
    Proof.
      induction k as [|k IH]; intros c nf Hc; cbn [hmc_loop]; [apply post_ret; cbn; split; [exact Hc|lia]|].
      eapply post_bind; [apply sound_hmove; auto|]. intros [c' nf'] [H1 H2]. cbn [fst] in *.
      intros s r Hr. destruct (IH c' nf' H1 s r Hr) as [H3 H4]. split; [exact H3|lia].
    Qed.
  End HMC.
End Concat.

(** ** The calls *)
Section Calls.
  Context {N : Num} {E : Env N}.
  Variable g : vec -> T.
  Hypothesis HM : SMemoryless g.

  Lemma uniform_vec_len lo up s x s' : length lo = length up -> uniform_vec lo up s = (inl x, s') ->
    length x = length lo.
  Proof.
    intros Hl H. unfold uniform_vec in H. apply bind_inl in H. destruct H as (u & z & _ & H).
    apply mapM_len in H. rewrite combine_length in H.
    unfold vec in *. lia.
  Qed.
  Lemma check_s a st lo up st' : s_check_x0 a st = (inl (lo, up), st') ->
    st' = st /\ length lo = nd_len (s_bounds a) /\ length up = nd_len (s_bounds a) /\
    (forall v, s_x0 a = Some (D1 v) -> length v = nd_len (s_bounds a)) /\
    (forall m, s_check_x0 (with_maxiter m a) st = (inl (lo, up), st)) /\
    (forall x m s, length x = nd_len (s_bounds a) ->
       s_check_x0 (starting x (with_maxiter m a)) s = (inl (lo, up), s)).
  Proof.
    intro H. unfold s_check_x0 in H.
    apply bind_inl in H. destruct H as (u1 & z1 & H1 & H). apply raise_if_inl in H1. destruct H1 as [C1 ->].
    apply bind_inl in H. destruct H as (u2 & z2 & H2 & H). apply raise_if_inl in H2. destruct H2 as [C2 ->].
    apply bind_inl in H. destruct H as ([lo' up'] & z3 & H3 & H).
    apply bind_inl in H. destruct H as (u4 & z4 & H4 & H). cbn in H. inversion H; subst lo' up' z4. clear H.
    assert (HB : exists rows, s_bounds a = D2 2 rows /\ lo = map (fun r => nth 0 r n0) rows /\
               up = map (fun r => nth 1 r n0) rows /\ z3 = st).
    { unfold unpack_bounds in H3. destruct (s_bounds a) as [|v|[|[|[|k]]] rows]; try discriminate.
      cbn in H3. inversion H3. eauto. }
    destruct HB as (rows & EB & -> & -> & ->).
    assert (HX : st' = st /\ (forall v, s_x0 a = Some (D1 v) -> length v = nd_len (s_bounds a))).
    { destruct (s_x0 a) as [[t|v|k X]|]; try discriminate; cbn in H4.
      - apply raise_if_inl in H4. destruct H4 as [Hc ->]. split; [reflexivity|].
        intros v' [= <-]. apply negb_false_iff, Nat.eqb_eq in Hc. exact Hc.
      - apply raise_if_inl in H4. destruct H4 as [_ ->]. split; [reflexivity|]. intros; discriminate.
      - inversion H4. split; [reflexivity|]. intros; discriminate. }
    destruct HX as [-> HX].
    split; [reflexivity|]. rewrite EB in *. cbn [nd_len] in *. rewrite !map_length.
    split; [reflexivity|]. split; [reflexivity|]. split; [exact HX|]. split.
    - intros m. unfold s_check_x0. cbn [with_maxiter s_callable s_bounds s_x0]. rewrite EB.
      rewrite (bind_eq _ _ _ _ _ (raise_if_no _ _ st C1)).
      rewrite (bind_eq _ _ _ _ _ (raise_if_no _ _ st C2)). cbn [unpack_bounds].
      rewrite (bind_eq (ret (map (fun r => nth 0 r n0) rows, map (fun r => nth 1 r n0) rows)) _ st (map (fun r => nth 0 r n0) rows, map (fun r => nth 1 r n0) rows) st eq_refl).
      erewrite (bind_eq _ _ st u4 st); [reflexivity|]. exact H4.
    - intros x m s Hx. unfold s_check_x0. cbn [starting with_maxiter s_callable s_bounds s_x0]. rewrite EB.
      rewrite (bind_eq _ _ _ _ _ (raise_if_no _ _ s C1)).
      rewrite (bind_eq _ _ _ _ _ (raise_if_no _ _ s C2)). cbn [unpack_bounds].
      rewrite (bind_eq (ret (map (fun r => nth 0 r n0) rows, map (fun r => nth 1 r n0) rows)) _ s (map (fun r => nth 0 r n0) rows, map (fun r => nth 1 r n0) rows) s eq_refl).
      erewrite (bind_eq _ _ s tt s); [reflexivity|]. apply raise_if_no. cbn [nd_len].
      apply negb_false_iff, Nat.eqb_eq. exact Hx.
  Qed.

  Lemma steps_s a lo up st v st' : length lo = nd_len (s_bounds a) -> length up = nd_len (s_bounds a) ->
    s_steps a lo up st = (inl v, st') ->
    length v = nd_len (s_bounds a) /\ forall s, exists b, s_steps a lo up s = (inl v, mkSt (rs s) (tr s) b).
  Proof.
    intros Hlo Hup H. unfold s_steps in H. cbn zeta in H.
    apply bind_inl in H. destruct H as (u1 & z1 & H1 & H). apply raise_if_inl in H1. destruct H1 as [C1 ->].
    unfold s_steps. cbn zeta.
    set (sd := match s_stepsize a with D0 x => _ | _ => _ end) in *.
    destruct sd as [|w|] eqn:Es; try discriminate.
    apply bind_inl in H. destruct H as (u2 & z2 & H2 & H). cbn in H. inversion H. subst v z2. clear H.
    apply negb_false_iff, Nat.eqb_eq in C1. cbn [nd_len] in C1. split.
    - rewrite map2_length, combine_length. unfold vec in *. lia.
    - intro s. rewrite (bind_eq _ _ _ _ _ (raise_if_no _ _ s (proj2 (negb_false_iff _) (proj2 (Nat.eqb_eq _ _) C1)))).
      destruct (match s_stepsize a with D1 _ => s_stepsize_array a | _ => false end); cbn [when].
      + eexists. reflexivity.
      + exists (argbuf s). destruct s. reflexivity.
  Qed.

  Lemma first_s a lo up st x st' : length lo = nd_len (s_bounds a) -> length up = nd_len (s_bounds a) ->
    (forall v, s_x0 a = Some (D1 v) -> length v = nd_len (s_bounds a)) ->
    s_first a lo up st = (inl x, st') ->
    (1 <= s_maxiter a)%Z /\ length x = nd_len (s_bounds a) /\
    forall m, (1 <= m)%Z -> s_first (with_maxiter m a) lo up st = (inl x, st').
  Proof.
    intros Hlo Hup Hx H. unfold s_first in H.
    apply bind_inl in H. destruct H as (u1 & z1 & H1 & H). apply raise_if_inl in H1. destruct H1 as [C1 ->].
    apply bind_inl in H. destruct H as (y & z2 & H2 & H).
    apply bind_inl in H. destruct H as (u3 & z3 & H3 & H). apply raise_if_inl in H3. destruct H3 as [C3 ->].
    cbn in H. inversion H. subst y z2. clear H. split; [lia|]. split.
    - destruct (s_x0 a) as [[t|v|k X]|]; try discriminate.
      + cbn in H2. inversion H2. subst. apply Hx. reflexivity.
      + rewrite (uniform_vec_len lo up st x st'); [exact Hlo|congruence|exact H2].
    - intros m Hm. unfold s_first. cbn [with_maxiter s_maxiter s_x0].
      rewrite (bind_eq _ _ _ _ _ (raise_if_no _ _ st (ltac:(lia) : (m <? 0)%Z = false))).
      rewrite (bind_eq _ _ _ _ _ H2).
      rewrite (bind_eq _ _ _ _ _ (raise_if_no _ _ st' (ltac:(lia) : (m =? 0)%Z = false))). reflexivity.
  Qed.
  Lemma first_at x a lo up s : (1 <= s_maxiter a)%Z -> s_first (starting x a) lo up s = (inl x, s).
  Proof.
    intro H. unfold s_first. cbn [starting s_maxiter s_x0].
    rewrite (bind_eq _ _ _ _ _ (raise_if_no _ _ s (ltac:(lia) : (s_maxiter a <? 0)%Z = false))).
    rewrite (bind_eq (ret x) _ s x s eq_refl).
    rewrite (bind_eq _ _ _ _ _ (raise_if_no _ _ s (ltac:(lia) : (s_maxiter a =? 0)%Z = false))). reflexivity.
  Qed.
  Lemma first_cb_s a x f s : exists t, s_first_cb a x f s = (inl tt, mkSt (rs s) (tr s ++ t) (argbuf s)) /\ evals t = [].
  Proof.
    unfold s_first_cb. destruct (s_has_cb a); cbn [when].
    - unfold call_scb. rewrite (proj2 HM). eexists. split; [reflexivity|reflexivity].
    - exists []. rewrite app_nil_r. destruct s. split; reflexivity.
  Qed.
  Lemma seed_cb_s a st u st' x : s_seed_cb a st = (inl u, st') -> forall s, s_seed_cb (starting x a) s = (inl tt, s).
  Proof.
    intros H s. unfold s_seed_cb in *. apply bind_inl in H. destruct H as (u1 & z1 & _ & H).
    apply raise_if_inl in H. destruct H as [C _]. cbn [starting s_seed s_callback seed].
    rewrite (bind_eq (ret tt) _ s tt s eq_refl). apply raise_if_no, C.
  Qed.

  Definition mcmc_n (n : Z) (A : MCArgs) : MCArgs := mkMCArgs (with_maxiter n (mca A)) (mca_perc A).
  Definition mcmc_from (x : vec) (m : Z) (A : MCArgs) : MCArgs :=
    mkMCArgs (starting x (with_maxiter m (mca A))) (mca_perc A).
  Definition hmc_n (n : Z) (A : HMCArgs) : HMCArgs :=
    mkHMCArgs (with_maxiter n (hma A)) (hma_nleap A) (hma_jac A) (hma_fd A).
  Definition hmc_from (x : vec) (m : Z) (A : HMCArgs) : HMCArgs :=
    mkHMCArgs (starting x (with_maxiter m (hma A))) (hma_nleap A) (hma_jac A) (hma_fd A).

  Definition mc_res (a : SArgs) (n : Z) (c : Chain) : SampRes :=
    {| sr_x := nth (ch_imin c) (ch_x c) []; sr_fun := ch_fmin c; sr_nit := n;
       sr_accept := ndiv (nZ (ch_acc c)) (nZ n); sr_nfev := None;
       sr_all := if s_return_all a then Some (ch_x c, ch_f c) else None |}.
  Definition one (x : vec) : Chain := mkChain [x] [g x] 0 0 ninf.

  Lemma setup_mc n A bz w a0 r1 s1 : ntrunc (nmul (mca_perc A) (nN (nd_len (s_bounds (mca A))))) = Some bz ->
    exec (mcmc_sample (mcmc_n n A)) w a0 = (inl r1, s1) ->
    let a := mca A in let d := nd_len (s_bounds a) in let b := Z.to_nat (Z.max 1 bz) in
    exists lo up steps x0 st c1,
      let Q := QM d b lo up steps a in
      (1 <= n)%Z /\ length steps = d /\ length x0 = d /\
      mc_outer (Q n (fun a => a)) (Z.to_nat n) (one x0) st = (inl c1, s1) /\ r1 = mc_res a n c1 /\
      (forall k, (1 <= k)%Z -> exec (mcmc_sample (mcmc_n k A)) w a0 =
         bind (mc_outer (Q k (fun a => a)) (Z.to_nat k) (one x0)) (fun c => ret (mc_res a k c)) st) /\
      (forall x k w' b', (1 <= k)%Z -> length x = d -> exists s2, rs s2 = w' /\ evals (tr s2) = [(x, g x)] /\
         exec (mcmc_sample (mcmc_from x k A)) w' b' =
         bind (mc_outer (Q k (starting x)) (Z.to_nat k) (one x)) (fun c => ret (mc_res a k c)) s2).
  Proof.
    intros Hb H a d b. unfold exec, mcmc_sample, mcmc_fuel in H. cbn zeta in H.
    cbn [mcmc_n mca mca_perc] in H. fold a in H.
    apply bind_inl in H. destruct H as ([lo up] & z1 & H1 & H).
    apply bind_inl in H. destruct H as (steps & z2 & H2 & H).
    apply bind_inl in H. destruct H as (u3 & z3 & H3 & H). apply raise_if_inl in H3. destruct H3 as [C3 ->].
    apply bind_inl in H. destruct H as (b4 & z4 & H4 & H). apply orelse_inl in H4. destruct H4 as [C4 ->].
    assert (b4 = bz) by (pose proof (eq_trans (eq_sym Hb) C4); congruence). subst b4.
    apply bind_inl in H. destruct H as (u5 & z5 & H5 & H).
    apply bind_inl in H. destruct H as (x0 & z6 & H6 & H).
    apply bind_inl in H. destruct H as (f & z7 & H7 & H).
    rewrite (call_g g HM) in H7. inversion H7. subst f z7. clear H7.
    apply bind_inl in H. destruct H as (u8 & z8 & H8 & H).
    apply bind_inl in H. destruct H as (c1 & z9 & H9 & H). cbn in H. inversion H. subst r1 z9. clear H.
    destruct (check_s _ _ _ _ _ H1) as (-> & L1 & L2 & L3 & K1 & K2).
    destruct (steps_s _ _ _ _ _ _ L1 L2 H2) as (L4 & K4).
    destruct (first_s _ _ _ _ _ _ L1 L2 L3 H6) as (L5 & L6 & K6).
    cbn [with_maxiter s_maxiter s_bounds] in *.
    exists lo, up, steps, x0, z8, c1. cbn zeta. repeat (split; [assumption||reflexivity|]). split.
    - intros k Hk. unfold exec, mcmc_sample, mcmc_fuel. cbn zeta. cbn [mcmc_n mca mca_perc]. fold a.
      rewrite (bind_eq _ _ _ _ _ (K1 k)).
      rewrite (bind_eq _ _ _ _ _ (H2 : s_steps (with_maxiter k a) lo up _ = _)).
      rewrite (bind_eq _ _ _ _ _ (raise_if_no _ _ z2 C3)).
      rewrite (bind_eq _ _ z2 bz z2) by (cbn [with_maxiter s_bounds]; rewrite C4; reflexivity).
      rewrite (bind_eq _ _ _ _ _ (H5 : s_seed_cb (with_maxiter k a) _ = _)).
      rewrite (bind_eq _ _ _ _ _ (K6 k Hk)).
      rewrite (bind_eq _ _ _ _ _ (call_g g HM x0 z6)).
      rewrite (bind_eq _ _ _ _ _ (H8 : s_first_cb (with_maxiter k a) _ _ _ = _)). reflexivity.
    - intros x k w' b' Hk Hx.
      destruct (K4 (mkSt w' [] b')) as [b1 K4'].
      destruct (first_cb_s (starting x (with_maxiter k a)) x (g x)
                  (mkSt w' ([] ++ [EEval x (inl (g x))]) b1)) as (t & Ht & Et).
      exists (mkSt w' (([] ++ [EEval x (inl (g x))]) ++ t) b1). split; [reflexivity|]. split.
      { cbn [tr]. rewrite evals_app, Et. reflexivity. }
      unfold exec, mcmc_sample, mcmc_fuel. cbn zeta. cbn [mcmc_from mca mca_perc]. fold a.
      rewrite (bind_eq _ _ _ _ _ (K2 x k (mkSt w' [] b') Hx)).
      rewrite (bind_eq _ _ _ _ _ (K4' : s_steps (starting x (with_maxiter k a)) lo up _ = _)). cbn [rs tr].
      rewrite (bind_eq _ _ _ _ _ (raise_if_no _ _ _ C3)).
      rewrite (bind_eq _ _ (mkSt w' [] b1) bz (mkSt w' [] b1))
        by (cbn [starting with_maxiter s_bounds]; rewrite C4; reflexivity).
      rewrite (bind_eq _ _ _ _ _ (seed_cb_s _ _ _ _ x H5 _ : s_seed_cb (starting x (with_maxiter k a)) _ = _)).
      rewrite (bind_eq _ _ _ _ _ (first_at x (with_maxiter k a) lo up (mkSt w' [] b1) Hk)).
      rewrite (bind_eq _ _ _ _ _ (call_g g HM x (mkSt w' [] b1))). cbn [rs tr argbuf].
      rewrite (bind_eq _ _ _ _ _ Ht). cbn [rs tr argbuf]. reflexivity.
  Qed.

  Definition hm_res (a : SArgs) (n : Z) (cn : Chain * Z) : M SampRes :=
    idx <- np_argmin (ch_f (fst cn)) ;;
    ret {| sr_x := nth idx (ch_x (fst cn)) []; sr_fun := nth idx (ch_f (fst cn)) n0; sr_nit := n;
           sr_accept := ndiv (nZ (ch_acc (fst cn))) (nZ n); sr_nfev := Some (snd cn);
           sr_all := if s_return_all a then Some (ch_x (fst cn), ch_f (fst cn)) else None |}.
  Lemma bind_ext {A B} (m : M A) (k k' : A -> M B) s : (forall a s, k a s = k' a s) -> bind m k s = bind m k' s.
  Proof. intro H. unfold bind. destruct (m s) as [[a|e] s']; [apply H|reflexivity]. Qed.

  Lemma setup_hm n A w a0 r1 s1 :
    exec (hmc_sample (hmc_n n A)) w a0 = (inl r1, s1) ->
    let a := hma A in let d := nd_len (s_bounds a) in
    exists lo up steps x0 st cn1 z,
      let Q := QH d lo up steps (Z.to_nat (hma_nleap A)) (hma_jac A) (hma_fd A) a in
      (1 <= n)%Z /\ length steps = d /\ length x0 = d /\
      hmc_loop (Q n (fun a => a)) (Z.to_nat n - 1) (one x0, 1%Z) st = (inl cn1, z) /\
      hm_res a n cn1 z = (inl r1, s1) /\
      (forall k, (1 <= k)%Z -> exec (hmc_sample (hmc_n k A)) w a0 =
         bind (hmc_loop (Q k (fun a => a)) (Z.to_nat k - 1) (one x0, 1%Z)) (hm_res a k) st) /\
      (forall x k w' b', (1 <= k)%Z -> length x = d -> exists s2, rs s2 = w' /\ evals (tr s2) = [(x, g x)] /\
         exec (hmc_sample (hmc_from x k A)) w' b' =
         bind (hmc_loop (Q k (starting x)) (Z.to_nat k - 1) (one x, 1%Z)) (hm_res a k) s2).
  Proof.
    intros H a d. unfold exec, hmc_sample in H. cbn zeta in H.
    cbn [hmc_n hma hma_nleap hma_jac hma_fd] in H. fold a in H.
    apply bind_inl in H. destruct H as ([lo up] & z1 & H1 & H).
    apply bind_inl in H. destruct H as (u2 & z2 & H2 & H). apply raise_if_inl in H2. destruct H2 as [C2 ->].
    apply bind_inl in H. destruct H as (steps & z3 & H3 & H).
    apply bind_inl in H. destruct H as (u4 & z4 & H4 & H). apply raise_if_inl in H4. destruct H4 as [C4 ->].
    apply bind_inl in H. destruct H as (u5 & z5 & H5 & H).
    apply bind_inl in H. destruct H as (x0 & z6 & H6 & H).
    apply bind_inl in H. destruct H as ([f nf] & z7 & H7 & H).
    assert (HC : forall x s, count_fun 0 x s =
               (inl (g x, 1%Z), mkSt (rs s) (tr s ++ [EEval x (inl (g x))]) (argbuf s))).
    { intros x s. unfold count_fun. rewrite (bind_eq _ _ _ _ _ (call_g g HM x s)). reflexivity. }
    rewrite HC in H7. inversion H7. subst f nf z7. clear H7.
    apply bind_inl in H. destruct H as (u8 & z8 & H8 & H).
    apply bind_inl in H. destruct H as ([c1 nf1] & z9 & H9 & H).
    destruct (check_s _ _ _ _ _ H1) as (-> & L1 & L2 & L3 & K1 & K2).
    destruct (steps_s _ _ _ _ _ _ L1 L2 H3) as (L4 & K4).
    destruct (first_s _ _ _ _ _ _ L1 L2 L3 H6) as (L5 & L6 & K6).
    cbn [with_maxiter s_maxiter s_bounds] in *.
    exists lo, up, steps, x0, z8, (c1, nf1), z9. cbn zeta.
    split; [exact L5|]. split; [exact L4|]. split; [exact L6|]. split; [exact H9|]. split; [exact H|]. split.
    - intros k Hk. unfold exec, hmc_sample. cbn zeta. cbn [hmc_n hma hma_nleap hma_jac hma_fd]. fold a.
      rewrite (bind_eq _ _ _ _ _ (K1 k)).
      rewrite (bind_eq _ _ _ _ _ (raise_if_no _ _ _ C2)).
      rewrite (bind_eq _ _ _ _ _ (H3 : s_steps (with_maxiter k a) lo up _ = _)).
      rewrite (bind_eq _ _ _ _ _ (raise_if_no _ _ z3 C4)).
      rewrite (bind_eq _ _ _ _ _ (H5 : s_seed_cb (with_maxiter k a) _ = _)).
      rewrite (bind_eq _ _ _ _ _ (K6 k Hk)).
      rewrite (bind_eq _ _ _ _ _ (HC x0 z6)).
      rewrite (bind_eq _ _ _ _ _ (H8 : s_first_cb (with_maxiter k a) _ _ _ = _)).
      apply bind_ext. intros [c nf] s. reflexivity.
    - intros x k w' b' Hk Hx.
      destruct (K4 (mkSt w' [] b')) as [b1 K4'].
      destruct (first_cb_s (starting x (with_maxiter k a)) x (g x)
                  (mkSt w' ([] ++ [EEval x (inl (g x))]) b1)) as (t & Ht & Et).
      exists (mkSt w' (([] ++ [EEval x (inl (g x))]) ++ t) b1). split; [reflexivity|]. split.
      { cbn [tr]. rewrite evals_app, Et. reflexivity. }
      unfold exec, hmc_sample. cbn zeta. cbn [hmc_from hma hma_nleap hma_jac hma_fd]. fold a.
      rewrite (bind_eq _ _ _ _ _ (K2 x k (mkSt w' [] b') Hx)).
      rewrite (bind_eq _ _ _ _ _ (raise_if_no _ _ _ C2)).
      rewrite (bind_eq _ _ _ _ _ (K4' : s_steps (starting x (with_maxiter k a)) lo up _ = _)). cbn [rs tr].
      rewrite (bind_eq _ _ _ _ _ (raise_if_no _ _ _ C4)).
      rewrite (bind_eq _ _ _ _ _ (seed_cb_s _ _ _ _ x H5 _ : s_seed_cb (starting x (with_maxiter k a)) _ = _)).
      rewrite (bind_eq _ _ _ _ _ (first_at x (with_maxiter k a) lo up (mkSt w' [] b1) Hk)).
      rewrite (bind_eq _ _ _ _ _ (HC x (mkSt w' [] b1))). cbn [rs tr argbuf].
      rewrite (bind_eq _ _ _ _ _ Ht). cbn [rs tr argbuf].
      apply bind_ext. intros [c nf] s. reflexivity.
  Qed.

  Lemma one_sound x d : length x = d -> Sound g d (one x).
  Proof. intro H. split; [reflexivity|]. split; [cbn; lia|]. repeat constructor. exact H. Qed.
  Lemma last_split {A} (l : list A) : 0 < length l -> exists t x, l = t ++ [x].
  Proof. intro H. destruct (exists_last (l := l)) as (t & x & ->); [destruct l; [cbn in H; lia|discriminate]|eauto]. Qed.
  (** the end of a chain, as the start of the next one *)
  Lemma at_end c d : Sound g d c -> exists X1 F1 x,
    ch_x c = X1 ++ [x] /\ ch_f c = F1 ++ [g x] /\ length x = d /\ Tail X1 F1 (ch_acc c) c (one x).
  Proof.
    intros (H1 & H2 & H3). destruct (last_split _ H2) as (X1 & x & E1).
    exists X1, (map g X1), x. split; [exact E1|]. split; [rewrite H1, E1, map_app; reflexivity|].
    rewrite E1 in H3. apply Forall_app in H3. destruct H3 as [_ H3]. inversion H3. subst. split; [reflexivity|].
    unfold Tail. rewrite H1, E1, map_app. cbn. repeat split; lia.
  Qed.


  Lemma longer_one x c : longer (one x) c -> exists X F, ch_x c = x :: X /\ ch_f c = g x :: F.
  Proof. intros (X & F & H1 & H2). exists X, F. split; [exact H1|exact H2]. Qed.

  Theorem C81_mcmc A n bz w a0 r1 s1 :
    let a := mca A in let d := nd_len (s_bounds a) in let b := Z.max 1 bz in
    (0 < d)%nat -> s_return_all a = true ->
    ntrunc (nmul (mca_perc A) (nN d)) = Some bz ->
    ((n - 1) mod ((Z.of_nat d + b - 1) / b) = 0)%Z ->
    exec (mcmc_sample (mcmc_n n A)) w a0 = (inl r1, s1) ->
    exists X x F, sr_all r1 = Some (X ++ [x], F) /\
      forall m a1, (1 <= m)%Z ->
        Continued g n m x r1 s1 (exec (mcmc_sample (mcmc_n (n + m - 1) A)) w a0)
                                (exec (mcmc_sample (mcmc_from x m A)) (rs s1) a1).
  Proof.
    intros a d b Hd Hall Hb Hmod H.
    destruct (setup_mc n A bz w a0 r1 s1 Hb H)
      as (lo & up & steps & x0 & st & c1 & Hn & Hst & Hx0 & HO & -> & KL & KR).
    fold a in Hst, Hx0, HO, KL, KR. fold d in Hst, Hx0, HO, KL, KR.
    set (bn := Z.to_nat (Z.max 1 bz)) in *.
    assert (Hbn : 0 < bn) by (unfold bn; lia).
    assert (Hlen : Z.of_nat (length (arange 0 d bn)) = ((Z.of_nat d + b - 1) / b)%Z).
    { rewrite arange_blocks by exact Hbn. rewrite map_length, seq_length. unfold nblocks.
      assert (Eb : Z.of_nat bn = b) by (unfold b, bn; lia).
      rewrite Nat2Z.inj_div, Eb, Nat2Z.inj_sub, Nat2Z.inj_add, Eb by lia. reflexivity. }
    assert (HB : arange 0 d bn <> []) by (apply arange_ne; exact Hd).
    assert (Hpos : (0 < length (arange 0 d bn))%nat) by (destruct (arange 0 d bn); [congruence|cbn; lia]).
    rewrite <- Hlen in Hmod. apply Z.mod_divide in Hmod; [|lia]. destruct Hmod as [q Hq].
    assert (Hq0 : (0 <= q)%Z) by nia.
    assert (H1 : len (one x0) = 1%Z) by reflexivity.
    assert (HS : Sound g d (one x0)) by (apply one_sound, Hx0).
    assert (HS1 : Sound g d c1 /\ len c1 = n).
    { destruct (outer_same g HM d [] bn lo up steps a Hst n 1 ltac:(lia) HB (Z.to_nat n) q (one x0) st c1 s1
                  (Z.to_nat n) HS ltac:(lia) Hq0 HO ltac:(lia)) as (kl' & _ & P2 & P3 & _). auto. }
    destruct HS1 as [HS1 HL1].
    destruct (at_end c1 d HS1) as (X1 & F1 & x & E1 & E2 & Hx & HT).
    exists X1, x, (ch_f c1). unfold mc_res at 1. cbn [sr_all]. fold a. rewrite Hall, E1. split; [reflexivity|].
    intros m b1 Hm.
    destruct (outer_same g HM d [] bn lo up steps a Hst n m Hm HB (Z.to_nat n) q (one x0) st c1 s1
                (Z.to_nat (n + m - 1)) HS ltac:(lia) Hq0 HO ltac:(lia)) as (kl' & P1 & _ & _ & P4).
    rewrite (KL (n + m - 1)%Z ltac:(lia)).
    destruct (KR x m (rs s1) b1 Hm Hx) as (s2 & R1 & R2 & ->).
    assert (HX1 : Z.of_nat (length X1) = (n - 1)%Z).
    { unfold len in HL1. rewrite E1, app_length in HL1. cbn in HL1. lia. }
    assert (HRs : Rs (evals (tr s1)) [(x, g x)] s1 s2).
    { split; [symmetry; exact R1|]. exists []. rewrite app_nil_r, R2. auto. }
    destruct (R_outer g HM (evals (tr s1)) [(x, g x)] d X1 F1 (ch_acc c1) bn lo up steps a Hst n HX1 x m HB
                (Z.to_nat (m - 1)) kl' (Z.to_nat m) c1 (one x) HT
                ltac:(unfold len; cbn; lia) ltac:(lia) ltac:(lia) s1 s2 HRs) as [(G1 & l & G2 & G3) G4].
    pose proof (mc_outer_post (QM d bn lo up steps a m (starting x)) (Z.to_nat m) (one x) s2) as HP.
    unfold bind. rewrite P1.
    destruct (mc_outer (QM d bn lo up steps a (n + m - 1) (fun a0 => a0)) kl' c1 s1) as [[cl|e] zl];
      destruct (mc_outer (QM d bn lo up steps a m (starting x)) (Z.to_nat m) (one x) s2) as [[cr|e'] zr];
      cbn [fst snd] in G1, G2, G3, G4; try contradiction.
    - cbn [ret fst snd]. unfold Continued. cbn [fst snd].
      split; [exact G1|]. split; [exists l; auto|].
      destruct (longer_one x cr (HP cr eq_refl)) as (X2 & F2 & E3 & E4).
      destruct G4 as (T1 & T2 & T3 & _).
      exists X1, F1, X2, F2, (g x), (ch_acc c1), (ch_acc cr). unfold mc_res. cbn [sr_all sr_accept sr_nfev]. fold a.
      rewrite Hall, E1, E2, E3, E4, T1, T2, T3, E3, E4. repeat split; reflexivity.
    - unfold Continued. cbn [fst snd]. split; [exact G1|]. split; [exists l; auto|exact G4].
  Qed.

  Theorem C81_hmc A n w a0 r1 s1 :
    s_return_all (hma A) = true ->
    exec (hmc_sample (hmc_n n A)) w a0 = (inl r1, s1) ->
    exists X x F, sr_all r1 = Some (X ++ [x], F) /\
      forall m a1, (1 <= m)%Z ->
        Continued g n m x r1 s1 (exec (hmc_sample (hmc_n (n + m - 1) A)) w a0)
                                (exec (hmc_sample (hmc_from x m A)) (rs s1) a1).
  Proof.
    intros Hall H. set (a := hma A) in *. set (d := nd_len (s_bounds a)) in *.
    destruct (setup_hm n A w a0 r1 s1 H)
      as (lo & up & steps & x0 & st & [c1 nf1] & z & Hn & Hst & Hx0 & HO & Hr & KL & KR).
    fold a in Hst, Hx0, HO, Hr, KL, KR. fold d in Hst, Hx0, HO, KL, KR.
    set (nl := Z.to_nat (hma_nleap A)) in *. set (jac := hma_jac A) in *. set (fd := hma_fd A) in *.
    assert (HS1 : Sound g d c1).
    { destruct (sound_hloop g HM d lo up steps nl jac fd a Hst n (Z.to_nat n - 1) (one x0) 1
                  (one_sound x0 d Hx0) st (c1, nf1)) as [P _]; [rewrite HO; reflexivity|exact P]. }
    destruct (at_end c1 d HS1) as (X1 & F1 & x & E1 & E2 & Hx & HT).
    assert (HA : forall c k nf s, 0 < length (ch_f c) -> hm_res a k (c, nf) s =
      (inl {| sr_x := nth (argmin (ch_f c)) (ch_x c) []; sr_fun := nth (argmin (ch_f c)) (ch_f c) n0; sr_nit := k;
              sr_accept := ndiv (nZ (ch_acc c)) (nZ k); sr_nfev := Some nf;
              sr_all := Some (ch_x c, ch_f c) |}, s)).
    { intros c k nf s Hc. unfold hm_res, np_argmin. cbn [fst snd]. rewrite Hall.
      destruct (ch_f c); [cbn in Hc; lia|]. reflexivity. }
    rewrite HA in Hr by (rewrite E2, app_length; cbn; lia).
    injection Hr as <- <-. cbn [sr_all]. rewrite E1.
    exists X1, x, (ch_f c1). split; [reflexivity|].
    intros m b1 Hm. rewrite (KL (n + m - 1)%Z ltac:(lia)).
    destruct (KR x m (rs z) b1 Hm Hx) as (s2 & R1 & R2 & ->).
    assert (HRs : Rs (evals (tr z)) [(x, g x)] z s2).
    { split; [symmetry; exact R1|]. exists []. rewrite app_nil_r, R2. auto. }
    assert (HTN : TailN X1 F1 (ch_acc c1) (nf1 - 1) (c1, nf1) (one x, 1%Z)) by (split; [exact HT|cbn [fst snd]; lia]).
    destruct (R_hloop g HM (evals (tr z)) [(x, g x)] d X1 F1 (ch_acc c1) lo up steps nl jac fd a (nf1 - 1) x
                (n + m - 1) m (Z.to_nat m - 1) (c1, nf1) (one x, 1%Z)
                HTN z s2 HRs) as [(G1 & l & G2 & G3) G4].
    pose proof (hmc_loop_post (QH d lo up steps nl jac fd a m (starting x)) (Z.to_nat m - 1) (one x, 1%Z) s2) as HP.
    replace (Z.to_nat (n + m - 1) - 1) with ((Z.to_nat n - 1) + (Z.to_nat m - 1)) by lia.
    assert (HLoop : hmc_loop (QH d lo up steps nl jac fd a (n + m - 1) (fun a0 => a0))
                      ((Z.to_nat n - 1) + (Z.to_nat m - 1)) (one x0, 1%Z) st =
                    hmc_loop (QH d lo up steps nl jac fd a (n + m - 1) (fun a0 => a0))
                      (Z.to_nat m - 1) (c1, nf1) z).
    { rewrite (hloop_add d lo up steps nl jac fd a n). apply bind_eq. exact HO. }
    unfold bind. rewrite HLoop.
    destruct (hmc_loop (QH d lo up steps nl jac fd a (n + m - 1) (fun a0 => a0)) (Z.to_nat m - 1) (c1, nf1) z)
      as [[[cl kl]|e] zl];
      destruct (hmc_loop (QH d lo up steps nl jac fd a m (starting x)) (Z.to_nat m - 1) (one x, 1%Z) s2)
        as [[[cr kr]|e'] zr]; cbn [fst snd] in G1, G2, G3, G4; try contradiction.
    - destruct G4 as [(T1 & T2 & T3 & T4 & T5) T6]. cbn [fst snd] in *.
      rewrite (HA cl) by (rewrite T2, app_length; lia). rewrite (HA cr) by exact T5.
      unfold Continued. cbn [fst snd].
      split; [exact G1|]. split; [exists l; auto|].
      destruct (longer_one x cr (HP (cr, kr) eq_refl)) as (X2 & F2 & E3 & E4).
      exists X1, F1, X2, F2, (g x), (ch_acc c1), (ch_acc cr). cbn [sr_all sr_accept sr_nfev].
      rewrite T1, T2, T3, E2, E3, E4. repeat split; try reflexivity. lia.
    - unfold Continued. cbn [fst snd]. split; [exact G1|]. split; [exists l; auto|exact G4].
  Qed.
End Calls.
