(** Theorems about mcmc: C32-C36, C48, C49, C50. *)
From Verif Require Import Base Num Env Common DE Sample Hoare EvalRules Steps Best Inst Valid Accept
  Chain Mcmc.

Section PropMc.
  Context {N : Num} {E : Env N} {L : OrdLaws num_arith}.

  (** ** Specification of a Metropolis chain, by index.
      [X], [F]: samples and values; [acc]: acceptance of step k -> k+1; [Y]: the proposals with
      their values, in order ([n0] for a proposal that was not evaluated). *)
  Record MetropolisChain (A : MCArgs) (t : list event)
      (rows : matrix) (b : nat) (steps : vec) (X : matrix) (F : vec) (acc : list bool)
      (Y : list (vec * T)) : Prop := {
    mh_bounds : s_bounds (mca A) = D2 2 rows;
    mh_block : block_size A (length rows) b;
    mh_steps : scaled_steps (mca A) rows steps;
    mh_X : length X = Z.to_nat (s_maxiter (mca A));
    mh_F : length F = Z.to_nat (s_maxiter (mca A));
    mh_acc : length acc = Z.to_nat (s_maxiter (mca A)) - 1;
    mh_Y : length Y = length acc;
    mh_dim : Forall (fun x : vec => length x = length rows) X;
    mh_first : first_sample (mca A) rows (nth 0 X []);
    mh_evals : evals t = (nth 0 X [], nth 0 F n0) :: (if rejects (mca A) then [] else Y);
    mh_nofail : ncalls t = length (evals t);
    mh_step : forall k, k < length acc ->
      let j := (k mod nblocks (length rows) b) * b in
      j + b <= length rows /\
      block_proposal steps j b (nth k X []) (fst (nth k Y ([], n0))) /\
      (nth (S k) X [], nth (S k) F n0) =
        (if nth k acc false then nth k Y ([], n0) else (nth k X [], nth k F n0)) /\
      (if rejects (mca A) then nth k acc false = false
       else exists u, isrand u /\
              nth k acc false = metropolis (nsub (nth k F n0) (snd (nth k Y ([], n0)))) u) }.

  Lemma evals_scbe a X F acc imin : evals (scbe a X F acc imin) = [].
  Proof. unfold scbe. destruct (s_has_cb a); reflexivity. Qed.
  Lemma ncalls_scbe a X F acc imin : ncalls (scbe a X F acc imin) = 0.
  Proof. unfold scbe. destruct (s_has_cb a); reflexivity. Qed.
  Lemma evals_scbe0 a x f : evals (scbe0 a x f) = [].
  Proof. unfold scbe0. destruct (s_has_cb a); reflexivity. Qed.
  Lemma ncalls_scbe0 a x f : ncalls (scbe0 a x f) = 0.
  Proof. unfold scbe0. destruct (s_has_cb a); reflexivity. Qed.

  (** The proposals of a trajectory. *)
  Lemma Traj_proposals a d b steps x f t0 X F acc t :
    Traj (mcR a d b steps) x f t0 X F acc t ->
    exists Y, length Y = length acc /\
      evals t = evals t0 ++ (if rejects a then [] else Y) /\
      ncalls t = ncalls t0 + length (if rejects a then [] else Y) /\
      forall k, k < length acc ->
        let j := (k mod nblocks d b) * b in
        j + b <= d /\
        block_proposal steps j b (nth k X []) (fst (nth k Y ([], n0))) /\
        (nth (S k) X [], nth (S k) F n0) =
          (if nth k acc false then nth k Y ([], n0) else (nth k X [], nth k F n0)) /\
        (if rejects a then nth k acc false = false
         else exists u, isrand u /\
                nth k acc false = metropolis (nsub (nth k F n0) (snd (nth k Y ([], n0)))) u).
  Proof.
    induction 1 as [|X F acc t y fy bb evs HT IH HR].
    - exists []. split; [reflexivity|]. split; [destruct (rejects a); rewrite app_nil_r; reflexivity|].
      split; [destruct (rejects a); cbn; lia|]. cbn. lia.
    - destruct IH as (Y & HY & He & Hn & Hs).
      pose proof (Traj_len _ _ _ _ _ _ _ _ HT) as [HlX HlF].
      destruct HR as (Hfit & Hp & Hb & imin & fmin & HB & Hev). cbn zeta in *.
      exists (Y ++ [(y, fy)]). rewrite !app_length. cbn [length].
      split; [lia|]. rewrite evals_app, ncalls_app, Hev, evals_app, ncalls_app, evals_scbe, ncalls_scbe, He, Hn.
      split; [destruct (rejects a); cbn; rewrite ?app_nil_r, <- ?app_assoc; reflexivity|].
      split; [destruct (rejects a); cbn; rewrite ?app_length; cbn; lia|].
      intros k Hk. destruct (Nat.eq_dec k (length acc)) as [->|Hne].
      + rewrite (nth_snoc_eq acc) by lia. rewrite (nth_snoc_eq Y) by lia.
        rewrite (nth_snoc_lt X _ _ (length acc)), (nth_snoc_lt F _ _ (length acc)) by lia.
        rewrite (nth_snoc_eq X _ _ (S (length acc))), (nth_snoc_eq F _ _ (S (length acc))) by lia. cbn [fst snd].
        unfold lastx, lastf in *. rewrite HlX, HlF in *. cbn [Nat.sub] in *. rewrite Nat.sub_0_r in *.
        repeat split; auto; try apply Hp. destruct bb; reflexivity.
      + rewrite (nth_snoc_lt acc), (nth_snoc_lt Y), (nth_snoc_lt X _ _ k), (nth_snoc_lt F _ _ k), (nth_snoc_lt X _ _ (S k)), (nth_snoc_lt F _ _ (S k)) by lia.
        apply Hs. lia.
  Qed.

  Lemma McRun_chain A rows b steps x f t0 X F acc imin fmin res t :
    McRun A rows b steps x f t0 X F acc imin fmin res t ->
    exists Y, MetropolisChain A t rows b steps X F acc Y.
  Proof.
    intros [[H1 H2 H3 H4 H5 H6 H7] HT Hl HB Hres].
    destruct (Traj_proposals _ _ _ _ _ _ _ _ _ _ _ HT) as (Y & HY & He & Hn & Hs).
    pose proof (Traj_len _ _ _ _ _ _ _ _ HT) as [HlX HlF].
    destruct (Traj_first _ _ _ _ _ _ _ _ HT) as [Hf1 Hf2].
    assert (Ht0 : evals t0 = [(x, f)] /\ ncalls t0 = 1).
    { rewrite H7. cbn. rewrite evals_scbe0, ncalls_scbe0. auto. }
    destruct Ht0 as [Ht0 Ht1].
    exists Y. constructor; auto; try lia.
    - eapply (R_len A rows b steps x f t0); eauto; [eapply block_size_pos; eauto|apply H3].
    - rewrite Hf1. exact H4.
    - rewrite He, Ht0, Hf1, Hf2. reflexivity.
    - rewrite He, Hn, Ht0, Ht1. cbn. destruct (rejects (mca A)); reflexivity.
  Qed.

  (** ** C32: the result of mcmc is a Metropolis chain. *)
  Theorem C32_chain_mcmc A w a0 res st' :
    0 < nd_len (s_bounds (mca A)) ->
    exec (mcmc_sample A) w a0 = (inl res, st') ->
    exists rows b steps X F acc Y,
      MetropolisChain A (tr st') rows b steps X F acc Y /\
      (forall k, k < length X -> In (nth k X [], nth k F n0) (evals (tr st'))) /\
      sr_nit res = s_maxiter (mca A) /\
      sr_accept res = ndiv (nN (length (filter (fun c => c) acc))) (nZ (s_maxiter (mca A))) /\
      sr_all res = (if s_return_all (mca A) then Some (X, F) else None) /\
      sr_nfev res = None.
  Proof.
    intros Hd H. destruct (mcmc_run A w a0 res st' Hd H)
      as (rows & b & steps & x & f & t0 & X & F & acc & imin & fmin & HR).
    destruct (McRun_chain _ _ _ _ _ _ _ _ _ _ _ _ _ _ HR) as [Y HC].
    exists rows, b, steps, X, F, acc, Y. split; [exact HC|].
    destruct HR as [HS HT Hl HB ->]. cbn.
    split; [|auto]. apply (Traj_evals _ _ _ _ _ _ _ _ ) with (3 := HT).
    - intros X' F' acc' y fy evs (_ & _ & Hb & i' & f' & _ & ->).
      rewrite evals_app. destruct (rejects (mca A)); [discriminate|]. left; reflexivity.
    - rewrite (ms_t0 _ _ _ _ _ _ _ HS). left; reflexivity.
  Qed.

  (** ** C34: the reported (x, fun) *)
  Theorem C34_best_mcmc A w a0 res st' :
    0 < nd_len (s_bounds (mca A)) ->
    exec (mcmc_sample A) w a0 = (inl res, st') ->
    exists rows b steps X F acc Y,
      MetropolisChain A (tr st') rows b steps X F acc Y /\
      (* no accepted sample is better *)
      (forall k, nth k acc false = true -> nltb (nth (S k) F n0) (sr_fun res) = false) /\
      ((* either no accepted value is below infinity: the first sample is returned with fun = inf *)
       (sr_fun res = ninf /\ sr_x res = nth 0 X []) \/
       (* or the first accepted proposal with the smallest value is returned *)
       (exists k, k < length acc /\ nth k acc false = true /\
          sr_x res = nth (S k) X [] /\ sr_fun res = nth (S k) F n0 /\
          nltb (sr_fun res) ninf = true /\ In (sr_x res, sr_fun res) (evals (tr st')) /\
          forall j, j < k -> nth j acc false = true -> nleb (nth (S j) F n0) (sr_fun res) = false)).
  Proof.
    intros Hd H. destruct (mcmc_run A w a0 res st' Hd H)
      as (rows & b & steps & x & f & t0 & X & F & acc & imin & fmin & HR).
    destruct (McRun_chain _ _ _ _ _ _ _ _ _ _ _ _ _ _ HR) as [Y HC].
    exists rows, b, steps, X, F, acc, Y. split; [exact HC|].
    destruct HR as [HS HT Hl [HB1 HB2] ->]. cbn. split; [exact HB2|].
    destruct HB1 as [[-> ->]|(k & -> & H1 & H2 & H3 & H4)]; [left; auto|right].
    assert (Hk : k < length acc).
    { destruct (Nat.lt_ge_cases k (length acc)); auto. rewrite nth_overflow in H1 by lia. discriminate. }
    exists k. repeat split; auto. rewrite <- H2.
    pose proof (Traj_len _ _ _ _ _ _ _ _ HT) as [HlX HlF].
    apply (Traj_evals (mcR (mca A) (length rows) b steps) x f t0 X F acc) with (3 := HT); [| |lia].
    - intros X' F' acc' y fy evs (_ & _ & Hb & i' & f' & _ & ->).
      rewrite evals_app. destruct (rejects (mca A)); [discriminate|]. left; reflexivity.
    - rewrite (ms_t0 _ _ _ _ _ _ _ HS). left; reflexivity.
  Qed.

  Lemma nth_repeat_lt {B} (v d : B) n i : i < n -> nth i (repeat v n) d = v.
  Proof. revert i; induction n as [|n IH]; intros [|i] H; cbn; try lia; auto. apply IH; lia. Qed.

  (** ** C36: constraints='Reject' *)
  Theorem C36_reject_mcmc A w a0 res st' :
    0 < nd_len (s_bounds (mca A)) -> s_constraints (mca A) = Some "Reject"%string ->
    exec (mcmc_sample A) w a0 = (inl res, st') ->
    exists x f, evals (tr st') = [(x, f)] /\
      sr_x res = x /\ sr_fun res = ninf /\
      sr_accept res = ndiv (nZ 0) (nZ (s_maxiter (mca A))) /\
      sr_all res = (if s_return_all (mca A)
                    then Some (repeat x (Z.to_nat (s_maxiter (mca A))),
                               repeat f (Z.to_nat (s_maxiter (mca A)))) else None).
  Proof.
    intros Hd Hr H. destruct (mcmc_run A w a0 res st' Hd H)
      as (rows & b & steps & x & f & t0 & X & F & acc & imin & fmin & HR).
    destruct (McRun_chain _ _ _ _ _ _ _ _ _ _ _ _ _ _ HR) as [Y HC].
    assert (Hrej : rejects (mca A) = true) by (unfold rejects; rewrite Hr; reflexivity).
    assert (Hacc : forall k, nth k acc false = false).
    { intros k. destruct (Nat.lt_ge_cases k (length acc)) as [Hk|Hk].
      - pose proof (mh_step _ _ _ _ _ _ _ _ _ HC k Hk) as (_ & _ & _ & H4).
        rewrite Hrej in H4. exact H4.
      - apply nth_overflow; lia. }
    assert (HXF : forall k, k < length X -> nth k X [] = x /\ nth k F n0 = f).
    { pose proof (mr_traj _ _ _ _ _ _ _ _ _ _ _ _ _ _ HR) as HT.
      destruct (Traj_first _ _ _ _ _ _ _ _ HT) as [Hf1 Hf2].
      pose proof (Traj_len _ _ _ _ _ _ _ _ HT) as [HlX HlF].
      induction k as [|k IH]; intros Hk; [auto|].
      pose proof (mh_step _ _ _ _ _ _ _ _ _ HC k ltac:(lia)) as (_ & _ & H3 & _).
      rewrite Hacc in H3. injection H3 as H3 H4. rewrite H3, H4. apply IH; lia. }
    assert (Hna : nacc acc = 0).
    { clear -Hacc. unfold nacc. induction acc as [|c acc IH]; auto.
      pose proof (Hacc 0) as H0. cbn in H0. subst c. cbn. apply IH. intros k. exact (Hacc (S k)). }
    exists x, f. pose proof (mh_evals _ _ _ _ _ _ _ _ _ HC) as He. rewrite Hrej in He.
    pose proof (mh_X _ _ _ _ _ _ _ _ _ HC) as HX1. pose proof (mh_F _ _ _ _ _ _ _ _ _ HC) as HF1.
    destruct HR as [HS HT Hl [HB1 HB2] ->]. cbn.
    pose proof (Traj_len _ _ _ _ _ _ _ _ HT) as [HlX HlF].
    destruct (HXF 0 ltac:(lia)) as [H1 H2]. rewrite He, H1, H2. split; [reflexivity|].
    destruct HB1 as [[-> ->]|(k & _ & Hk & _)]; [|rewrite Hacc in Hk; discriminate].
    split; auto. split; auto. split; [rewrite Hna; reflexivity|].
    destruct (s_return_all (mca A)); auto. f_equal. f_equal.
    - apply (@list_ext vec []); [rewrite repeat_length; exact HX1|]. intros i Hi.
      rewrite (proj1 (HXF i Hi)). symmetry. apply nth_repeat_lt.
      rewrite <- HX1. exact Hi.
    - apply (list_ext n0); [rewrite repeat_length; exact HF1|]. intros i Hi.
      rewrite (proj2 (HXF i ltac:(lia))). symmetry. apply nth_repeat_lt.
      rewrite <- HF1. exact Hi.
  Qed.

  (** ** C35: perc and the partial block *)
  Lemma fits_div d b n : 1 <= b -> (forall k, k < n -> (k mod nblocks d b) * b + b <= d) ->
    d mod b = 0 \/ n <= d / b.
  Proof.
    intros Hb H. destruct (Nat.eq_dec (d mod b) 0) as [Hd|Hd]; auto. right.
    destruct (Nat.le_gt_cases n (d / b)) as [Hn|Hn]; auto. exfalso.
    pose proof (Nat.div_mod d b ltac:(lia)) as Hdm. pose proof (Nat.mod_upper_bound d b ltac:(lia)).
    specialize (H (d / b) Hn).
    assert (Hnb : nblocks d b = d / b + 1).
    { unfold nblocks. symmetry; apply Nat.div_unique with (r := d mod b - 1); nia. }
    rewrite Hnb, Nat.mod_small in H by lia. nia.
  Qed.

  (** When it returns, the blocks fit or the run was too short to reach the last one. *)
  Theorem C35_returns A w a0 res st' :
    0 < nd_len (s_bounds (mca A)) ->
    exec (mcmc_sample A) w a0 = (inl res, st') ->
    exists b, block_size A (nd_len (s_bounds (mca A))) b /\
      (nd_len (s_bounds (mca A)) mod b = 0 \/
       (s_maxiter (mca A) <= 1 + Z.of_nat (nd_len (s_bounds (mca A)) / b))%Z).
  Proof.
    intros Hd H. destruct (mcmc_run A w a0 res st' Hd H)
      as (rows & b & steps & x & f & t0 & X & F & acc & imin & fmin & HR).
    destruct (McRun_chain _ _ _ _ _ _ _ _ _ _ _ _ _ _ HR) as [Y HC].
    pose proof (mh_bounds _ _ _ _ _ _ _ _ _ HC) as Hb. rewrite Hb in *. cbn [nd_len] in *.
    exists b. pose proof (mh_block _ _ _ _ _ _ _ _ _ HC) as Hbs. split; [exact Hbs|].
    destruct (fits_div (length rows) b (length acc)) as [H1|H1]; auto.
    - eapply block_size_pos; eauto.
    - intros k Hk. apply (mh_step _ _ _ _ _ _ _ _ _ HC k Hk).
    - right. pose proof (mh_acc _ _ _ _ _ _ _ _ _ HC) as Ha. lia.
  Qed.

  (** When it fails (valid arguments), user code failed, or a ValueError reports that the blocks do
      not fit and the run was long enough to reach the last one. *)
  Theorem C35_raises A w a0 e st' :
    0 < nd_len (s_bounds (mca A)) -> ValidMC A ->
    ntrunc (nmul (mca_perc A) (nN (nd_len (s_bounds (mca A))))) <> None ->
    exec (mcmc_sample A) w a0 = (inr e, st') ->
    (exists n, e = UserError n) \/
    (e = ValueError /\ exists b, block_size A (nd_len (s_bounds (mca A))) b /\
       nd_len (s_bounds (mca A)) mod b <> 0 /\
       (1 + Z.of_nat (nd_len (s_bounds (mca A)) / b) < s_maxiter (mca A))%Z).
  Proof.
    intros Hd HV Hn H. pose proof (wp_elim_exn _ _ _ _ _ _ (mcmc_wp A w a0 Hd) H) as HX.
    cbn beta in HX.
    pose proof (C22_accepted_mcmc A w a0 HV Hn) as (ev & evs & Htr & _). rewrite H in Htr. cbn in Htr.
    destruct HX as [_ [HX|[HX|(rows & b & steps & x & f & t0 & HS & -> & X & F & acc & HT & Hlt & Hp)]]].
    - congruence.
    - left; exact HX.
    - right. split; auto. exists b.
      rewrite (ms_bounds _ _ _ _ _ _ _ HS) in *. cbn [nd_len] in *.
      pose proof (ms_b _ _ _ _ _ _ _ HS) as Hbs. split; [exact Hbs|].
      pose proof (block_size_pos _ _ _ Hbs) as Hb1. unfold partial_block in Hp.
      set (d := length rows) in *.
      pose proof (Nat.div_mod d b ltac:(lia)) as Hdm. pose proof (Nat.mod_upper_bound d b ltac:(lia)).
      assert (Hnz : nblocks d b <> 0) by (pose proof (nblocks_pos d b ltac:(lia) Hd); lia).
      pose proof (Nat.mod_upper_bound (length acc) (nblocks d b) Hnz) as Hmb.
      pose proof (Nat.mod_le (length acc) (nblocks d b) Hnz) as Hml.
      set (k := length acc mod nblocks d b) in *.
      assert (Hnd : d mod b <> 0).
      { intros Hz0. pose proof (nblocks_mul d b ltac:(lia) Hz0). nia. }
      split; auto.
      assert (Hk : d / b <= k) by nia.
      pose proof (Traj_len _ _ _ _ _ _ _ _ HT) as [HlX _]. lia.
  Qed.

  (** ** C48: NaN values are always accepted *)
  (** NaN is absorbing for subtraction (instances for binary64 and extended reals in SampInst.v) *)
  Class NanLaws : Prop := {
    nan_sub_l : forall x y : T, ~ isnum x -> ~ isnum (nsub x y);
    nan_sub_r : forall x y : T, ~ isnum y -> ~ isnum (nsub x y) }.

  Lemma metropolis_nan delta u :
    ~ isnum delta -> nltb (nln u) n0 = true -> metropolis delta u = true.
  Proof.
    intros Hn Hu. unfold metropolis, pymin. rewrite (nan_lt_l _ _ Hn). exact Hu.
  Qed.

  (** log(np.random.rand()) < 0: the draws lie in [0, 1) *)
  Definition LogNeg : Prop := forall u, isrand u -> nltb (nln u) n0 = true.

  Theorem C48_nan_accepted_mcmc {NL : NanLaws} A w a0 res st' :
    LogNeg -> 0 < nd_len (s_bounds (mca A)) -> s_constraints (mca A) <> Some "Reject"%string ->
    exec (mcmc_sample A) w a0 = (inl res, st') ->
    exists rows b steps X F acc Y,
      MetropolisChain A (tr st') rows b steps X F acc Y /\
      forall k, k < length acc -> ~ isnum (snd (nth k Y ([], n0))) ->
        nth k acc false = true /\ nth (S k) X [] = fst (nth k Y ([], n0)) /\
        ~ isnum (nth (S k) F n0) /\
        (S k < length acc -> nth (S k) acc false = true).
  Proof.
    intros HL Hd Hr H. destruct (C32_chain_mcmc A w a0 res st' Hd H)
      as (rows & b & steps & X & F & acc & Y & HC & _).
    exists rows, b, steps, X, F, acc, Y. split; [exact HC|]. intros k Hk Hn.
    assert (Hrej : rejects (mca A) = false).
    { unfold rejects. destruct (s_constraints (mca A)) as [c|]; auto.
      destruct (String.eqb_spec c "Reject"); [subst; congruence|reflexivity]. }
    pose proof (mh_step _ _ _ _ _ _ _ _ _ HC) as Hs. rewrite Hrej in Hs.
    destruct (Hs k Hk) as (_ & _ & H3 & u & Hu & H4).
    assert (Ha : nth k acc false = true).
    { rewrite H4. apply metropolis_nan; [apply nan_sub_r; exact Hn|apply HL, Hu]. }
    rewrite Ha in H3. rewrite (surjective_pairing (nth k Y ([], n0))) in H3.
    injection H3 as H3 H5. split; auto. split; auto. split; [rewrite H5; exact Hn|].
    intros Hk'. destruct (Hs (S k) Hk') as (_ & _ & _ & u' & Hu' & H6).
    rewrite H6. apply metropolis_nan; [apply nan_sub_l; rewrite H5; exact Hn|apply HL, Hu'].
  Qed.

  (** ** C33: downhill and equal moves are always accepted *)
  Theorem C33_downhill delta u :
    nleb n0 delta = true -> nltb (nln u) n0 = true -> metropolis delta u = true.
  Proof.
    intros Hn Hu. unfold metropolis, pymin. rewrite (le_nlt _ _ Hn). exact Hu.
  Qed.

  (** ** C49: mcmc terminates when there is a coordinate ... *)
  Theorem C49_mcmc_terminates A w a0 e st' :
    0 < nd_len (s_bounds (mca A)) -> exec (mcmc_sample A) w a0 = (inr e, st') -> e <> OutOfFuel.
  Proof.
    intros Hd H. pose proof (wp_elim_exn _ _ _ _ _ _ (mcmc_wp A w a0 Hd) H) as HX. apply HX.
  Qed.

  (** ... and never does for empty bounds: the outer loop makes no progress, so it runs for any
      number of rounds. *)
  Lemma mc_outer_stuck P fl c s : mc_d P = 0 -> (Z.of_nat (length (ch_x c)) < mc_maxiter P)%Z ->
    mc_outer P fl c s = (inr OutOfFuel, s).
  Proof.
    intros Hd Hl. apply Z.ltb_lt in Hl. revert s. induction fl as [|fl IH]; intros s; cbn [mc_outer];
      rewrite Hl; [reflexivity|]. rewrite Hd. apply IH.
  Qed.

  Theorem C49_mcmc_diverges A w a0 fl :
    nd_len (s_bounds (mca A)) = 0 -> (2 <= s_maxiter (mca A))%Z -> ValidMC A ->
    ntrunc (nmul (mca_perc A) (nN 0)) <> None ->
    exists e st', exec (mcmc_fuel fl A) w a0 = (inr e, st') /\
      (e = OutOfFuel \/ exists n, e = UserError n).
  Proof.
    intros Hd Hm HV Hn.
    assert (Hn' : ntrunc (nmul (mca_perc A) (nN (nd_len (s_bounds (mca A))))) <> None)
      by (rewrite Hd; exact Hn).
    pose proof (accepted_mcmc_fuel fl A w a0 HV Hn') as (ev & evs & Htr & _).
    assert (HW : wp (mcmc_fuel fl A) (fun _ _ => False)
              (fun e s => tr s = [] \/ e = OutOfFuel \/ exists n, e = UserError n) (mkSt w [] a0)).
    { unfold mcmc_fuel. cbn zeta.
      assert (HX : early (fun e s => tr s = [] \/ e = OutOfFuel \/ exists n, e = UserError n) [])
        by (intros e s' Ht _ _; auto).
      apply wp_bind, wp_s_check; [exact HX|]. intros rows Hb Hx0.
      apply wp_bind. apply wp_s_steps; [exact Hb|exact HX|]. intros steps s1 Ht1 _ _ _. cbn [tr] in Ht1.
      apply wp_bind, wp_raise_if; intros _; [apply HX; congruence || auto|].
      apply wp_bind.
      destruct (ntrunc (nmul (mca_perc A) (nN (nd_len (s_bounds (mca A)))))) as [z|]; [|congruence].
      apply wp_ret. apply wp_bind, wp_s_seed_cb; [rewrite Ht1; exact HX|].
      intros s2 Ht2 _. rewrite Ht1 in Ht2.
      apply wp_bind, wp_s_first; [exact Hx0|rewrite Ht2; exact HX|].
      intros x s3 Ht3 _ _ _.
      apply wp_bind, wp_call_fun; [|right; right; eauto]. intros f w' _.
      apply wp_bind, wp_s_first_cb; [|right; right; eauto]. intros s4 _.
      apply wp_bind. unfold wp. rewrite mc_outer_stuck; [auto|exact Hd|]. cbn. lia. }
    unfold wp in HW. unfold exec in *. destruct (mcmc_fuel fl A (mkSt w [] a0)) as [[r|e] s'] eqn:Hr.
    - destruct HW.
    - exists e, s'. split; auto. cbn in Htr. destruct HW as [HW|HW]; [congruence|exact HW].
  Qed.
End PropMc.
