(** The steps of hmc (sample/hmc/_hmc.py:145-175) written as equations between numbers, with every
    evaluation of the run accounted for (C71). *)
From Verif Require Import Base Num Env Common DE Sample Hoare EvalRules Gen Steps Best Inst Disc Valid Accept
  Chain Mcmc PropMc Hmc PropHmc.

Section HmcEq.
  Context {N : Num} {E : Env N} {L : OrdLaws num_arith}.

  (** ** Specification, on single numbers *)
  (** coordinate i of row k *)
  Definition crd (M : list vec) (k i : nat) : T := nth i (nth k M []) n0.
  Definition half : T := nlit 5 (-1).

  (** [V] are the 2d evaluations of the objective that give the gradient [g] at [x]: for each
      coordinate k one at a point with coordinate k raised by h, then one with it lowered by h; the
      coordinates before k were raised and lowered back (or lowered and raised back), the later ones
      are those of x. *)
  Record Central (h : T) (x g : vec) (V : list (vec * T)) : Prop := {
    ce_len : length g = length x;
    ce_count : length V = 2 * length x;
    ce_pts : forall k, k < length x -> exists xp fp xm fm,
      nth (2 * k) V ([], n0) = (xp, fp) /\ nth (2 * k + 1) V ([], n0) = (xm, fm) /\
      length xp = length x /\ length xm = length x /\
      nth k xp n0 = nadd (nth k x n0) h /\ nth k xm n0 = nsub (nth k x n0) h /\
      (forall j, j < k -> nth j xp n0 = nsub (nadd (nth j x n0) h) h /\
                          nth j xm n0 = nadd (nsub (nth j x n0) h) h) /\
      (forall j, k < j < length x -> nth j xp n0 = nth j x n0 /\ nth j xm n0 = nth j x n0) /\
      nth k g n0 = ndiv (nmul half (nsub fp fm)) h }.

  (** A leap-frog trajectory of n + 1 drifts from (x, p0) to (y, p): positions [Q], momenta [P]
      between them, gradients [G], and the evaluations [V] of the gradients in order. *)
  Record Flight (d n : nat) (h : T) (s x p0 : vec) (Q P G : list vec) (V : list (vec * T))
      (y p : vec) : Prop := {
    fl_Q : length Q = n + 2 /\ Forall (fun q : vec => length q = d) Q;
    fl_P : length P = n + 1 /\ Forall (fun q : vec => length q = d) P;
    fl_G : length G = n + 2;
    fl_grad : exists W, length W = n + 2 /\ V = concat W /\
                forall k, k < n + 2 -> Central h (nth k Q []) (nth k G []) (nth k W []);
    fl_start : nth 0 Q [] = x;
    fl_kick0 : forall i, i < d ->
      crd P 0 i = nsub (nth i p0 n0) (nmul (nmul half (nth i s n0)) (crd G 0 i));
    fl_drift : forall k i, k < n + 1 -> i < d ->
      crd Q (S k) i = nadd (crd Q k i) (nmul (nth i s n0) (crd P k i));
    fl_kick : forall k i, k < n -> i < d ->
      crd P (S k) i = nsub (crd P k i) (nmul (nth i s n0) (crd G (S k) i));
    fl_end : y = nth (n + 1) Q [];
    fl_plen : length p = d;
    fl_kickn : forall i, i < d ->
      nth i p n0 = nsub (crd P n i) (nmul (nmul half (nth i s n0)) (crd G (n + 1) i)) }.

  (** half the sum of the squares, added from the left *)
  Definition Kin (p : vec) : T := nmul half (fold_left (fun a b => nadd a (nmul b b)) p n0).

  (** the decision on an energy difference [D] (old minus new) with the uniform number [u] *)
  Definition Decides (D u : T) (bb : bool) : Prop :=
    bb = true <-> nltb (nln u) n0 = true /\ (nltb D n0 = true -> nltb (nln u) D = true).

  (** One step: from the sample (x, f) to (x', f'), accepted or not, with the evaluations [V]. *)
  Definition HmStep (rej : bool) (d n : nat) (h : T) (s x : vec) (f : T) (x' : vec) (f' : T)
      (bb : bool) (V : list (vec * T)) : Prop :=
    exists p0 Q P G Vg y p fy,
      length p0 = d /\ Forall israndn p0 /\
      Flight d n h s x p0 Q P G Vg y p /\
      (x', f') = (if bb then (y, fy) else (x, f)) /\
      (if rej then bb = false /\ V = Vg
       else exists U0 u, isrand u /\ V = Vg ++ [(x, U0); (y, fy)] /\
              Decides (nsub (nadd (nsub U0 fy) (Kin p0)) (Kin p)) u bb).

  (** ** The model's helpers and the specification agree *)
  Lemma Kin_kinetic p : kinetic p = Kin p.
  Proof.
    unfold kinetic, Kin, half, vsum. f_equal. generalize (@n0 num_arith) as z.
    induction p as [|a p IH]; intros z; cbn [map fold_left]; auto.
  Qed.
  Lemma metropolis_Decides D u : Decides D u (metropolis D u).
  Proof.
    unfold Decides, metropolis, pymin. destruct (nltb D n0) eqn:HD.
    - split; [|tauto]. intros H. split; [|auto].
      destruct (nltb (nln u) n0) eqn:Hl; auto.
      assert (Hu : isnum (nln u)) by (eapply le_num_l, ol_lt_le; exact H).
      assert (H0 : isnum (n0 : T)) by (eapply le_num_r, ol_lt_le; exact HD).
      pose proof (ol_total _ _ Hu H0 Hl) as Hle.
      pose proof (ol_le_trans _ _ _ Hle (ol_lt_le _ _ H)) as Hc.
      rewrite (ol_lt_nle _ _ HD) in Hc. discriminate.
    - split; [|tauto]. intros H. split; [auto|discriminate].
  Qed.

  Lemma nth_map2_lt (g : T -> T -> T) u v i : i < length u -> i < length v ->
    nth i (map2 g u v) n0 = g (nth i u n0) (nth i v n0).
  Proof. intros. apply map2_nth; auto. Qed.
  Lemma nth_half_kick s p g i : length s = length p -> length g = length p -> i < length p ->
    nth i (half_kick s p g) n0 = nsub (nth i p n0) (nmul (nmul half (nth i s n0)) (nth i g n0)).
  Proof.
    intros H1 H2 Hi. unfold half_kick, vsub. rewrite nth_map2_lt by (rewrite ?map2_length; lia).
    rewrite nth_map2_lt by lia. reflexivity.
  Qed.
  Lemma nth_kick s p g i : length s = length p -> length g = length p -> i < length p ->
    nth i (kick s p g) n0 = nsub (nth i p n0) (nmul (nth i s n0) (nth i g n0)).
  Proof.
    intros H1 H2 Hi. unfold kick, vsub, vmul. rewrite nth_map2_lt by (rewrite ?map2_length; lia).
    rewrite nth_map2_lt by lia. reflexivity.
  Qed.
  Lemma nth_drift s q p i : length s = length q -> length p = length q -> i < length q ->
    nth i (drift s q p) n0 = nadd (nth i q n0) (nmul (nth i s n0) (nth i p n0)).
  Proof.
    intros H1 H2 Hi. unfold drift, vadd, vmul. rewrite nth_map2_lt by (rewrite ?map2_length; lia).
    rewrite nth_map2_lt by lia. reflexivity.
  Qed.

  Lemma GradOf_Central h x g evs : GradOf h x g evs -> Central h x g (evals evs).
  Proof.
    intros [H1 H2 H3 H4]. constructor; auto. intros k Hk.
    destruct (H4 k Hk) as (f1 & f2 & Hp & Hm & Hg).
    exists (ng_plus h x k), f2, (ng_minus h x k), f1. unfold ng_plus, ng_minus in *.
    rewrite !len_map_seq, !nth_map_seq by lia. rewrite Nat.eqb_refl.
    repeat (split; [assumption || reflexivity|]).
    split; [|split; [|exact Hg]].
    - intros j Hj. rewrite !nth_map_seq by lia.
      destruct (Nat.eqb_spec j k); [lia|]. destruct (Nat.ltb_spec j k); [auto|lia].
    - intros j Hj. rewrite !nth_map_seq by lia.
      destruct (Nat.eqb_spec j k); [lia|]. destruct (Nat.ltb_spec j k); [lia|auto].
  Qed.

  Lemma evals_concat (W : list (list event)) : evals (concat W) = concat (map evals W).
  Proof. induction W as [|e W IH]; cbn; auto. rewrite evals_app, IH. reflexivity. Qed.

  Lemma Leapfrog_Flight d n h s x p0 y p evl :
    length s = d -> length x = d -> length p0 = d -> Leapfrog h s n x p0 y p evl ->
    exists Q P G, Flight d n h s x p0 Q P G (evals evl) y p.
  Proof.
    intros Hs Hx Hp0 [(Q & P & G & V & HQ & HP & HG & HV & -> & Hgr & HQ0 & HP0 & Hd & Hk & Hy & Hp)].
    unfold at_ in *.
    assert (HGl : forall k, k < n + 2 -> length (nth k G []) = length (nth k Q [])).
    { intros k Hk'. apply (gr_len _ _ _ _ (Hgr k Hk')). }
    assert (Hlen : forall k, (k < n + 2 -> length (nth k Q []) = d) /\ (k < n + 1 -> length (nth k P []) = d)).
    { induction k as [|k [IH1 IH2]].
      - split; intros _; [congruence|]. rewrite HP0, half_kick_length; [auto|congruence|].
        rewrite HGl by lia. congruence.
      - assert (Hq : S k < n + 2 -> length (nth (S k) Q []) = d).
        { intros Hlt. rewrite Hd by lia. rewrite drift_length; rewrite ?IH1, ?IH2 by lia; auto. }
        split; [exact Hq|]. intros Hlt. rewrite Hk by lia.
        rewrite kick_length; rewrite ?HGl, ?IH2 by lia; auto. rewrite Hq by lia. auto. }
    assert (HlQ : forall k, k < n + 2 -> length (nth k Q []) = d) by (intros; apply Hlen; auto).
    assert (HlP : forall k, k < n + 1 -> length (nth k P []) = d) by (intros; apply Hlen; auto).
    assert (HlG : forall k, k < n + 2 -> length (nth k G []) = d)
      by (intros k Hk'; rewrite HGl by auto; auto).
    exists Q, P, G. constructor.
    - split; auto. rewrite (@Forall_nth' vec) with (d := []). rewrite HQ. auto.
    - split; auto. rewrite (@Forall_nth' vec) with (d := []). rewrite HP. auto.
    - auto.
    - exists (map evals V). rewrite map_length, evals_concat. split; [auto|]. split; [auto|].
      intros k Hk'. change (@nil (vec * T)) with (evals (@nil event)). rewrite map_nth.
      apply GradOf_Central, Hgr. auto.
    - auto.
    - intros i Hi. unfold crd. rewrite HP0. apply nth_half_kick; rewrite ?HlG by lia; congruence.
    - intros k i Hk' Hi. unfold crd. rewrite Hd by lia.
      apply nth_drift; rewrite ?HlQ, ?HlP by lia; congruence.
    - intros k i Hk' Hi. unfold crd. rewrite Hk by lia.
      apply nth_kick; rewrite ?HlP, ?HlG by lia; congruence.
    - auto.
    - rewrite Hp, half_kick_length; rewrite ?HlP, ?HlG by lia; auto.
    - intros i Hi. rewrite Hp. apply nth_half_kick; rewrite ?HlP, ?HlG by lia; congruence.
  Qed.

  Lemma Traj_steps A (rows : matrix) (steps x : vec) f t0 X F acc t :
    length steps = length rows -> length x = length rows ->
    Traj (hmR (hma A) (length rows) (Z.to_nat (hma_nleap A)) (hma_fd A) steps) x f t0 X F acc t ->
    exists V : list (list (vec * T)), length V = length acc /\ evals t = evals t0 ++ concat V /\
      forall k, k < length acc ->
        HmStep (rejects (hma A)) (length rows) (Z.to_nat (hma_nleap A)) (hma_fd A) steps
          (nth k X []) (nth k F n0) (nth (S k) X []) (nth (S k) F n0) (nth k acc false) (nth k V []).
  Proof.
    intros Hst Hx. induction 1 as [|X F acc t y fy bb evs HT (V & HV & Ht & Hk) HR].
    - exists []. cbn. rewrite app_nil_r. repeat split; auto. intros k Hk. lia.
    - pose proof (Traj_len _ _ _ _ _ _ _ _ HT) as [HlX HlF].
      pose proof (hm_R_len A rows steps x f t0 Hst Hx X F acc t HT) as HXl.
      pose proof HR as (p0 & p & evl & tail & imin & fmin & Hp0 & Hn & HL & Hy & _ & _ & Htl & _ & ->).
      destruct (Leapfrog_Flight (length rows) _ _ _ _ _ _ _ _ Hst
                  (hm_lastx_len A rows steps x f t0 Hst Hx X F acc t HT) Hp0 HL) as (Q & P & G & HF).
      exists (V ++ [evals evl ++ evals tail]). rewrite !app_length. cbn [length].
      split; [lia|]. split.
      + rewrite !evals_app, Ht, concat_app, evals_scbe, !app_nil_r. cbn. rewrite !app_nil_r, <- !app_assoc. reflexivity.
      + intros k Hk'. destruct (Nat.eq_dec k (length acc)) as [->|Hne].
        * rewrite (nth_snoc_eq acc), (nth_snoc_eq V) by lia.
          rewrite (nth_snoc_eq X _ _ (S _)), (nth_snoc_eq F _ _ (S _)) by lia.
          rewrite (nth_snoc_lt X), (nth_snoc_lt F) by lia.
          exists p0, Q, P, G, (evals evl), y, p, fy. split; [auto|]. split; [auto|].
          unfold lastx, lastf in *. replace (length X - 1) with (length acc) in * by lia.
          replace (length F - 1) with (length acc) in * by lia.
          split; [exact HF|]. split; [destruct bb; reflexivity|].
          destruct (rejects (hma A)).
          -- destruct Htl as [-> ->]. cbn. rewrite app_nil_r. auto.
          -- destruct Htl as (U0 & u & Hu & -> & ->). exists U0, u. split; [auto|].
             split; [reflexivity|]. rewrite <- !Kin_kinetic. apply metropolis_Decides.
        * rewrite (nth_snoc_lt acc), (nth_snoc_lt V) by lia.
          rewrite !(nth_snoc_lt X), !(nth_snoc_lt F) by lia. apply Hk. lia.
  Qed.

  (** ** C71 *)
  Theorem C71_equations A w a0 res st' :
    hma_jac A = JacNone -> exec (hmc_sample A) w a0 = (inl res, st') ->
    exists rows steps X F acc V,
      s_bounds (hma A) = D2 2 rows /\ scaled_steps (hma A) rows steps /\
      first_sample (hma A) rows (nth 0 X []) /\ length (nth 0 X []) = length rows /\
      length X = S (length acc) /\ length F = S (length acc) /\ length V = length acc /\
      s_maxiter (hma A) = Z.of_nat (length X) /\
      evals (tr st') = (nth 0 X [], nth 0 F n0) :: concat V /\
      (forall k, k < length acc ->
        HmStep (rejects (hma A)) (length rows) (Z.to_nat (hma_nleap A)) (hma_fd A) steps
          (nth k X []) (nth k F n0) (nth (S k) X []) (nth (S k) F n0) (nth k acc false) (nth k V [])) /\
      sr_all res = (if s_return_all (hma A) then Some (X, F) else None).
  Proof.
    intros Hj H. destruct (wp_elim _ _ _ _ _ _ (hmc_wp A w a0 Hj) H)
      as (rows & steps & x & f & t0 & X & F & acc & HR).
    destruct HR as [[H1 H2 H3 H4 H5 H6 H7] HT Hl ->].
    pose proof (Traj_len _ _ _ _ _ _ _ _ HT) as [HlX HlF].
    destruct (Traj_first _ _ _ _ _ _ _ _ HT) as [Hf1 Hf2].
    destruct (Traj_steps _ _ _ _ _ _ _ _ _ _ (proj1 H2) H4 HT) as (V & HV & Ht & Hk).
    exists rows, steps, X, F, acc, V. subst x f.
    do 5 (split; [assumption || lia|]). split; [lia|]. split; [auto|]. split; [symmetry; exact Hl|].
    split; [|split; [exact Hk|reflexivity]].
    rewrite Ht, H7. cbn. rewrite evals_scbe0. reflexivity.
  Qed.
End HmcEq.
