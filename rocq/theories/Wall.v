(** Infinite values of the objective in the samplers (C75): a wall for mcmc, a hole for hmc. *)
From Verif Require Import Base Num Env Common DE Sample Hoare EvalRules Gen Steps Best Inst Disc Valid Accept
  Chain Mcmc PropMc Hmc PropHmc HmcEq.

Section Wall.
  Context {N : Num} {E : Env N} {L : OrdLaws num_arith}.

  (** +inf *)
  Definition isinf (x : T) : Prop := nleb ninf x = true.

  (** Subtracting +inf; NaN is absorbing *)
  Class WallLaws : Prop := {
    wl_num : isnum (ninf : T);
    wl_down : forall x y z : T, isnum x -> ~ isinf x -> isinf y ->
                nltb (nsub x y) n0 = true /\ nltb z (nsub x y) = false;
    wl_up : forall x y : T, isinf x -> nltb (nsub x y) n0 = false;
    wl_same : forall x y : T, isinf x -> isinf y -> ~ isnum (nsub x y);
    wl_sub_l : forall x y : T, ~ isnum x -> ~ isnum (nsub x y);
    wl_sub_r : forall x y : T, ~ isnum y -> ~ isnum (nsub x y);
    wl_add_l : forall x y : T, ~ isnum x -> ~ isnum (nadd x y);
    wl_add_r : forall x y : T, ~ isnum y -> ~ isnum (nadd x y);
    wl_mul_l : forall x y : T, ~ isnum x -> ~ isnum (nmul x y);
    wl_mul_r : forall x y : T, ~ isnum y -> ~ isnum (nmul x y);
    wl_div_l : forall x y : T, ~ isnum x -> ~ isnum (ndiv x y) }.
  Context {W : WallLaws}.

  Lemma inf_num x : isinf x -> isnum x.
  Proof. intros H. exact (le_num_r _ _ H). Qed.
  Lemma wall_refused x y u : isnum x -> ~ isinf x -> isinf y -> metropolis (nsub x y) u = false.
  Proof.
    intros Hx Hn Hy. destruct (wl_down x y (nln u) Hx Hn Hy) as [H1 H2].
    unfold metropolis, pymin. rewrite H1. exact H2.
  Qed.
  Lemma wall_free x y u : isinf x -> nltb (nln u) n0 = true -> metropolis (nsub x y) u = true.
  Proof. intros Hx Hu. unfold metropolis, pymin. rewrite (wl_up x y Hx). exact Hu. Qed.

  (** ** mcmc: the samples of value +inf are the first m, whatever the proposals; as long as the chain is
      there it accepts everything *)
  Lemma rejects_not a : s_constraints a <> Some "Reject"%string -> rejects a = false.
  Proof.
    intros Hr. unfold rejects. destruct (s_constraints a) as [c|]; auto.
    destruct (String.eqb_spec c "Reject"); [subst; congruence|reflexivity].
  Qed.

  Theorem C75_mcmc A w a0 res st' :
    0 < nd_len (s_bounds (mca A)) -> s_constraints (mca A) <> Some "Reject"%string ->
    exec (mcmc_sample A) w a0 = (inl res, st') ->
    (forall x y, In (x, y) (evals (tr st')) -> isnum y) ->
    exists rows b steps X F acc Y m,
      MetropolisChain A (tr st') rows b steps X F acc Y /\
      sr_all res = (if s_return_all (mca A) then Some (X, F) else None) /\
      m <= length F /\
      (forall k, k < length F -> isinf (nth k F n0) <-> k < m) /\
      (forall k, m <= S k -> k < length acc -> isinf (snd (nth k Y ([], n0))) ->
         m <= k /\ nth k acc false = false) /\
      (LogNeg -> forall k, k < m -> k < length acc -> nth k acc false = true).
  Proof.
    intros Hd Hr H Hnum. destruct (C32_chain_mcmc A w a0 res st' Hd H)
      as (rows & b & steps & X & F & acc & Y & HC & HV & _ & _ & Hall & _).
    pose proof (rejects_not _ Hr) as Hrej.
    pose proof (mh_step _ _ _ _ _ _ _ _ _ HC) as Hs. rewrite Hrej in Hs.
    pose proof (mh_X _ _ _ _ _ _ _ _ _ HC) as HlX. pose proof (mh_F _ _ _ _ _ _ _ _ _ HC) as HlF.
    pose proof (mh_acc _ _ _ _ _ _ _ _ _ HC) as Hla.
    assert (HF : forall k, k < length F -> isnum (nth k F n0)).
    { intros k Hk. apply (Hnum (nth k X [])). apply HV. lia. }
    assert (Hout : forall k, S k < length F -> ~ isinf (nth k F n0) -> ~ isinf (nth (S k) F n0) /\
              (isinf (snd (nth k Y ([], n0))) -> nth k acc false = false)).
    { intros k Hk Hn. destruct (Hs k ltac:(lia)) as (_ & _ & H3 & u & _ & H4).
      assert (Hrf : isinf (snd (nth k Y ([], n0))) -> nth k acc false = false).
      { intros Hi. rewrite H4. apply wall_refused; auto. apply HF. lia. }
      split; [|exact Hrf]. intros Hi. destruct (nth k acc false).
      - rewrite (surjective_pairing (nth k Y _)) in H3. injection H3 as _ H5. rewrite H5 in Hi.
        specialize (Hrf Hi). discriminate.
      - injection H3 as _ H5. rewrite H5 in Hi. auto. }
    assert (Hdec : forall k, {isinf (nth k F n0)} + {~ isinf (nth k F n0)}).
    { intros k. unfold isinf. destruct (nleb ninf (nth k F n0)); [left; reflexivity|right; discriminate]. }
    assert (Hm : exists m, m <= length F /\ (forall k, k < length F -> isinf (nth k F n0) <-> k < m)).
    { assert (Hn : forall n, n <= length F -> exists m, m <= n /\ (forall k, k < n -> isinf (nth k F n0) <-> k < m)).
      { induction n as [|n IH]; intros Hn; [exists 0; split; [lia|intros; lia]|].
        destruct (IH ltac:(lia)) as (m & Hm & Hk). destruct (Nat.eq_dec m n) as [->|Hne].
        - destruct (Hdec n) as [Hi|Hi].
          + exists (S n). split; [lia|]. intros k Hk'. destruct (Nat.eq_dec k n) as [->|]; [split; auto|].
            rewrite Hk by lia. lia.
          + exists n. split; [lia|]. intros k Hk'. destruct (Nat.eq_dec k n) as [->|]; [split; [tauto|lia]|].
            rewrite Hk by lia. lia.
        - exists m. split; [lia|]. intros k Hk'. destruct (Nat.eq_dec k n) as [->|]; [|apply Hk; lia].
          split; [|lia]. intros Hi. exfalso. destruct n as [|n]; [lia|].
          apply (proj1 (Hout n ltac:(lia) ltac:(intros Hc; apply Hk in Hc; lia))). exact Hi. }
      exact (Hn (length F) (Nat.le_refl _)). }
    destruct Hm as (m & Hm & Hk). exists rows, b, steps, X, F, acc, Y, m. split; [exact HC|].
    split; [exact Hall|]. split; [exact Hm|]. split; [exact Hk|]. split.
    - intros k Hle Hlt Hi. destruct (le_lt_dec m k) as [H1|H1].
      + split; [exact H1|]. apply (proj2 (Hout k ltac:(lia) ltac:(intros Hc; apply Hk in Hc; lia))). exact Hi.
      + exfalso. assert (m = S k) by lia. subst m.
        assert (Hn : ~ isinf (nth (S k) F n0)) by (intros Hc; apply Hk in Hc; lia).
        apply Hn. destruct (Hs k Hlt) as (_ & _ & H3 & _). assert (Hik : isinf (nth k F n0)) by (apply Hk; lia).
        destruct (nth k acc false).
        * rewrite (surjective_pairing (nth k Y _)) in H3. injection H3 as _ H5. rewrite H5. exact Hi.
        * injection H3 as _ H5. rewrite H5. exact Hik.
    - intros HL k Hlt Hla'. destruct (Hs k Hla') as (_ & _ & _ & u & Hu & H4). rewrite H4.
      apply wall_free; [apply Hk; lia|apply HL, Hu].
  Qed.

  (** ** hmc *)
  (** the evaluations that belong to the gradients of step k, pairwise *)
  Lemma nth_concat_pairs (Ws : list (list (vec * T))) c r i :
    (forall k, k < length Ws -> length (nth k Ws []) = c) -> i < c -> r < length Ws ->
    nth (r * c + i) (concat Ws) ([], n0) = nth i (nth r Ws []) ([], n0) /\ r * c + i < length (concat Ws).
  Proof.
    revert r. induction Ws as [|V Ws IH]; intros r HW Hi Hr; [cbn in Hr; lia|].
    pose proof (HW 0 ltac:(cbn; lia)) as HV. cbn [nth] in HV. cbn [concat].
    destruct r as [|r].
    - cbn [Nat.mul nth]. rewrite app_nth1, app_length by (cbn; lia). split; [reflexivity|cbn; lia].
    - destruct (IH r ltac:(intros k Hk; apply (HW (S k)); cbn; lia) Hi ltac:(cbn in Hr; lia)) as [H1 H2].
      cbn [nth]. rewrite <- H1. rewrite app_nth2, app_length by (cbn; lia).
      split; [f_equal; cbn; lia|cbn; lia].
  Qed.

  Lemma Kin_nan p i : i < length p -> ~ isnum (nth i p n0) -> ~ isnum (Kin p).
  Proof.
    intros Hi Hn. unfold Kin. apply wl_mul_r.
    assert (Hacc : forall q z, ~ isnum z -> ~ isnum (fold_left (fun a b => nadd a (nmul b b)) q z)).
    { induction q as [|v q IH]; intros z Hz; cbn; [exact Hz|]. apply IH, wl_add_l, Hz. }
    generalize (n0 : T) at 1 as z. revert i Hi Hn. induction p as [|v p IH]; intros i Hi Hn z; [cbn in Hi; lia|].
    cbn [fold_left]. destruct i as [|i]; cbn [nth] in Hn.
    - apply Hacc, wl_add_r, wl_mul_l, Hn.
    - apply (IH i); [cbn in Hi; lia|exact Hn].
  Qed.

  (** a NaN in the gradient of coordinate i at the r-th position of the flight *)
  Lemma flight_nan d n h s x p0 Q P G V y p r i :
    Flight d n h s x p0 Q P G V y p -> i < d -> r < n + 2 -> ~ isnum (crd G r i) ->
    ~ isnum (nth i p n0) /\ (r < n + 1 -> ~ isnum (nth i y n0)).
  Proof.
    intros HF Hi Hr Hn.
    assert (HP : forall k, r <= k -> k < n + 1 -> ~ isnum (crd P k i)).
    { intros k Hk Hlt. induction Hk as [|k Hk IH].
      - destruct r as [|r].
        + rewrite (fl_kick0 _ _ _ _ _ _ _ _ _ _ _ _ HF i Hi). apply wl_sub_r, wl_mul_r, Hn.
        + rewrite (fl_kick _ _ _ _ _ _ _ _ _ _ _ _ HF r i) by lia. apply wl_sub_r, wl_mul_r, Hn.
      - rewrite (fl_kick _ _ _ _ _ _ _ _ _ _ _ _ HF k i) by lia. apply wl_sub_l, IH. lia. }
    split.
    - rewrite (fl_kickn _ _ _ _ _ _ _ _ _ _ _ _ HF i Hi). destruct (Nat.eq_dec r (n + 1)) as [->|Hne].
      + apply wl_sub_r, wl_mul_r, Hn.
      + apply wl_sub_l, HP; lia.
    - intros Hlt. rewrite (fl_end _ _ _ _ _ _ _ _ _ _ _ _ HF). replace (n + 1) with (S n) by lia.
      fold (crd Q (S n) i). rewrite (fl_drift _ _ _ _ _ _ _ _ _ _ _ _ HF n i) by lia.
      apply wl_add_r, wl_mul_r, HP; lia.
  Qed.
  (** a NaN coordinate stays *)
  Lemma flight_nan_pos d n h s x p0 Q P G V y p i :
    Flight d n h s x p0 Q P G V y p -> i < d -> ~ isnum (nth i x n0) -> ~ isnum (nth i y n0).
  Proof.
    intros HF Hi Hn. rewrite (fl_end _ _ _ _ _ _ _ _ _ _ _ _ HF). fold (crd Q (n + 1) i).
    assert (H : forall k, k < n + 2 -> ~ isnum (crd Q k i)).
    { induction k as [|k IH]; intros Hk.
      - unfold crd. rewrite (fl_start _ _ _ _ _ _ _ _ _ _ _ _ HF). exact Hn.
      - rewrite (fl_drift _ _ _ _ _ _ _ _ _ _ _ _ HF k i) by lia. apply wl_add_l, IH. lia. }
    apply H. lia.
  Qed.

  Lemma decides_nan D u bb : Decides D u bb -> nltb (nln u) n0 = true -> ~ isnum D -> bb = true.
  Proof. intros HD Hu Hn. apply HD. split; [exact Hu|]. intros Hl. exfalso. apply Hn. exact (lt_num_l _ _ Hl). Qed.

  (** The value [v] of two evaluations whose difference is NaN: both +inf, or one NaN *)
  Definition Lost (f g : T) : Prop := (isinf f /\ isinf g) \/ ~ isnum f \/ ~ isnum g.
  Lemma Lost_sub f g : Lost f g -> ~ isnum (nsub f g).
  Proof. intros [[H1 H2]|[H|H]]; [apply wl_same; auto|apply wl_sub_l, H|apply wl_sub_r, H]. Qed.

  (** [V k] are the evaluations of step k.  The gradient at position r and coordinate i of that step is the
      difference of numbers 2 (r d + i) and 2 (r d + i) + 1.  If these are lost, the step is accepted, and
      (unless it was the last gradient) coordinate i of the sample is NaN from then on. *)
  Theorem C75_hmc A w a0 res st' :
    LogNeg -> hma_jac A = JacNone -> s_constraints (hma A) <> Some "Reject"%string ->
    exec (hmc_sample A) w a0 = (inl res, st') ->
    exists rows X F acc (V : list (list (vec * T))),
      s_bounds (hma A) = D2 2 rows /\ length X = S (length acc) /\ length F = S (length acc) /\
      length V = length acc /\ Forall (fun x : vec => length x = length rows) X /\
      evals (tr st') = (nth 0 X [], nth 0 F n0) :: concat V /\
      sr_all res = (if s_return_all (hma A) then Some (X, F) else None) /\
      (forall k, k < length acc ->
        length (nth k V []) = 2 * length rows * (Z.to_nat (hma_nleap A) + 2) + 2 /\
        (* a lost gradient *)
        (forall r i xf f xg g, r < Z.to_nat (hma_nleap A) + 2 -> i < length rows ->
           nth (2 * (r * length rows + i)) (nth k V []) ([], n0) = (xf, f) ->
           nth (2 * (r * length rows + i) + 1) (nth k V []) ([], n0) = (xg, g) ->
           Lost f g ->
           nth k acc false = true /\
           (r < Z.to_nat (hma_nleap A) + 1 ->
              forall j, k < j -> j < length X -> ~ isnum (nth i (nth j X []) n0))) /\
        (* a NaN or a wall at the end of the step while the value is NaN *)
        (let fy := snd (nth (2 * length rows * (Z.to_nat (hma_nleap A) + 2) + 1) (nth k V []) ([], n0)) in
         let fx := snd (nth (2 * length rows * (Z.to_nat (hma_nleap A) + 2)) (nth k V []) ([], n0)) in
         Lost fx fy -> nth k acc false = true)).
  Proof.
    intros HL Hj Hr H. destruct (C71_equations A w a0 res st' Hj H)
      as (rows & steps & X & F & acc & V & Hb & Hst & Hf & HX0 & HlX & HlF & HlV & _ & Hev & Hk & Hall).
    rewrite (rejects_not _ Hr) in Hk.
    assert (Hlen : forall k, k < length X -> length (nth k X []) = length rows).
    { induction k as [|k IH]; intros Hlt; [exact HX0|].
      destruct (Hk k ltac:(lia)) as (p0 & Q & P & G & Vg & y & p & fy & _ & _ & HF & He & _).
      destruct (nth k acc false); injection He as -> _; [|apply IH; lia].
      rewrite (fl_end _ _ _ _ _ _ _ _ _ _ _ _ HF). destruct (fl_Q _ _ _ _ _ _ _ _ _ _ _ _ HF) as [Hq1 Hq2].
      rewrite Forall_forall in Hq2. apply Hq2, nth_In. lia. }
    set (d := length rows) in *. set (n := Z.to_nat (hma_nleap A)) in *.
    exists rows, X, F, acc, V. fold d n.
    do 4 (split; [assumption|]). split.
    { apply (Forall_nth' _ _ []). intros k Hlt. apply Hlen, Hlt. }
    split; [exact Hev|]. split; [exact Hall|].
    assert (Hstay : forall i k, i < d -> ~ isnum (nth i (nth k X []) n0) ->
              forall j, k <= j -> j < length X -> ~ isnum (nth i (nth j X []) n0)).
    { intros i k Hi Hn j Hle. induction Hle as [|j Hle IH]; intros Hlt; [exact Hn|].
      specialize (IH ltac:(lia)).
      destruct (Hk j ltac:(lia)) as (p0 & Q & P & G & Vg & y & p & fy & _ & _ & HF & He & _).
      destruct (nth j acc false); injection He as -> _; [|exact IH].
      exact (flight_nan_pos _ _ _ _ _ _ _ _ _ _ _ _ _ HF Hi IH). }
    intros k Hlt. destruct (Hk k Hlt) as (p0 & Q & P & G & Vg & y & p & fy & Hp0 & _ & HF & He & U0 & u & Hu & HV & HD).
    assert (HV' : @nth (list (vec * T)) k V [] = Vg ++ [(nth k X [], U0); (y, fy)]) by exact HV.
    clear HV; rename HV' into HV.
    destruct (fl_grad _ _ _ _ _ _ _ _ _ _ _ _ HF) as (Ws & HlW & HVg & HC).
    assert (HlQ : forall r, r < n + 2 -> length (nth r Q []) = d).
    { intros r Hr'. destruct (fl_Q _ _ _ _ _ _ _ _ _ _ _ _ HF) as [Hq1 Hq2].
      rewrite Forall_forall in Hq2. apply Hq2, nth_In. lia. }
    assert (HWc : forall r, r < length Ws -> length (nth r Ws []) = 2 * d).
    { intros r Hr'. rewrite (ce_count _ _ _ _ (HC r ltac:(lia))), HlQ by lia. reflexivity. }
    assert (HlVg : length Vg = 2 * d * (n + 2)).
    { rewrite HVg, <- HlW. clear - HWc. induction Ws as [|v Ws IH]; [cbn; lia|].
      cbn [concat length]. rewrite app_length, IH.
      - pose proof (HWc 0 ltac:(cbn; lia)) as H0. cbn in H0. cbn [length]. lia.
      - intros r Hr'. apply (HWc (S r)). cbn. lia. }
    split; [rewrite HV, app_length, HlVg; cbn; lia|]. split.
    - intros r i xf f xg g Hr' Hi H1 H2 Hlost.
      destruct (nth_concat_pairs Ws (2 * d) r (2 * i) HWc ltac:(lia) ltac:(lia)) as [Ha Ha'].
      destruct (nth_concat_pairs Ws (2 * d) r (2 * i + 1) HWc ltac:(lia) ltac:(lia)) as [Hb1 Hb'].
      replace (2 * (r * d + i)) with (r * (2 * d) + 2 * i) in H1 by lia.
      replace (2 * (r * d + i) + 1) with (r * (2 * d) + (2 * i + 1)) in H2 by lia.
      rewrite HV, app_nth1, HVg, Ha in H1 by (rewrite HVg; exact Ha').
      rewrite HV, app_nth1, HVg, Hb1 in H2 by (rewrite HVg; exact Hb').
      destruct (ce_pts _ _ _ _ (HC r Hr') i ltac:(rewrite HlQ by lia; exact Hi))
        as (xp & fp & xm & fm & E1 & E2 & _ & _ & _ & _ & _ & _ & Hg).
      rewrite E1 in H1. rewrite E2 in H2. injection H1 as -> ->. injection H2 as -> ->.
      assert (HG : ~ isnum (crd G r i)).
      { unfold crd. rewrite Hg. apply wl_div_l, wl_mul_r, Lost_sub, Hlost. }
      destruct (flight_nan _ _ _ _ _ _ _ _ _ _ _ _ _ _ HF Hi Hr' HG) as [Hp Hy].
      assert (Hacc : nth k acc false = true).
      { apply (decides_nan _ _ _ HD); [apply HL, Hu|]. apply wl_sub_r. apply (Kin_nan p i); [|exact Hp].
        rewrite (fl_plen _ _ _ _ _ _ _ _ _ _ _ _ HF). exact Hi. }
      split; [exact Hacc|]. intros Hrn j Hkj Hjl. apply (Hstay i (S k) Hi); [|exact Hkj|exact Hjl].
      rewrite Hacc in He. injection He as -> _. apply Hy, Hrn.
    - cbv zeta. rewrite HV, !app_nth2 by (rewrite HlVg; lia). rewrite HlVg.
      replace (2 * d * (n + 2) + 1 - 2 * d * (n + 2)) with 1 by lia. rewrite Nat.sub_diag. cbn [nth snd].
      intros Hlost. apply (decides_nan _ _ _ HD); [apply HL, Hu|].
      apply wl_sub_l, wl_add_l, Lost_sub, Hlost.
  Qed.
End Wall.
