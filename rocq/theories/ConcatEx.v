(** Chains that meet the hypotheses of C81, and a chain cut in the middle of a sweep over the blocks,
    which is not continued; binary64. *)
From Coq Require Import Floats.
From Verif Require Import Base Num NumF Env Common DE Sample Demo ExPop ExSamp Limits LimitsSamp Concat.
Open Scope nat_scope.

Definition sphere81 (x : list float) : float :=
  fold_left PrimFloat.add (map (fun v => PrimFloat.mul v v) x) 0%float.
Notation E81 := (DemoEnv DF f_sphere).
Theorem C81_memoryless : @SMemoryless NDF E81 sphere81.
Proof. split; reflexivity. Qed.

(** two blocks of one coordinate *)
Definition mc81 : @MCArgs NDF := mcargs bsq [0.5; 0.5]%float 1 0.5%float None 0.5%float.
Definition hm81 : @HMCArgs NDF :=
  @mkHMCArgs NDF (sargs bsq [0.5; 0.5]%float 1 0.125%float None true CbFun) 2 JacNone 0.03125%float.
Definition w81 := script [0.0625; 0.5; 0.25; 0.125; 0.5; 0.5; 0.25; 0.5]%float
                         [-0.5; -0.25; 0.125; 0.75; -0.75; -1; 0.25; 0.125; -0.5; 0.25; 0.5; -0.25]%float.

Definition rows81 (r : (@SampRes NDF + Exn) * @St NDF E81) : list (list float) :=
  match fst r with inl r => match sr_all r with Some (xs, _) => xs | None => [] end | _ => [] end.
Definition meq (X Y : list (list float)) : bool :=
  Nat.eqb (length X) (length Y) && forallb (fun p => veq (fst p) (snd p)) (combine X Y).

(** The chain of [n] samples, the chain of [m] samples from its end, the chain of [n + m - 1] samples:
    all three return, the short one moves, and [same] says whether the parts make up the whole. *)
Definition check81 (run : Z -> (@SampRes NDF + Exn) * @St NDF E81)
    (from : list float -> Z -> @RNG NDF E81 * @US NDF E81 -> (@SampRes NDF + Exn) * @St NDF E81) (n m : Z) (same : bool) : bool :=
  let r1 := run n in
  let rr := from (last (rows81 r1) []) m (rs (snd r1)) in
  let rl := run (n + m - 1)%Z in
  Nat.eqb (length (rows81 r1)) (Z.to_nat n) && Nat.eqb (length (rows81 rr)) (Z.to_nat m) &&
  Nat.eqb (length (rows81 rl)) (Z.to_nat (n + m - 1)) &&
  negb (veq (nth 0 (rows81 r1) []) (last (rows81 r1) [])) &&
  negb (veq (nth 0 (rows81 rr) []) (last (rows81 rr) [])) &&
  Bool.eqb (meq (rows81 rl) (rows81 r1 ++ tl (rows81 rr))) same.

Definition mc_run n := @exec NDF E81 _ (@mcmc_sample NDF E81 (mcmc_n n mc81)) w81 None.
Definition mc_from x m w := @exec NDF E81 _ (@mcmc_sample NDF E81 (mcmc_from x m mc81)) w None.
Definition hm_run n := @exec NDF E81 _ (@hmc_sample NDF E81 (hmc_n n hm81)) w81 None.
Definition hm_from x m w := @exec NDF E81 _ (@hmc_sample NDF E81 (hmc_from x m hm81)) w None.

Theorem C81_runs :
  check81 mc_run mc_from 3 3 true = true /\ check81 mc_run mc_from 5 2 true = true /\
  check81 hm_run hm_from 2 3 true = true /\ check81 hm_run hm_from 3 2 true = true.
Proof. vm_compute. repeat split. Qed.

(** Two samples of a chain that moves the two coordinates in turn end in the middle of a sweep: the
    second call starts again with the first coordinate. *)
Theorem C81_mid_sweep : check81 mc_run mc_from 2 3 false = true.
Proof. vm_compute. reflexivity. Qed.

(** The hypotheses of C81_mcmc and C81_hmc hold for these runs. *)
Lemma returned81 (r : (@SampRes NDF + Exn) * @St NDF E81) : rows81 r <> [] -> exists r1 s1, r = (inl r1, s1).
Proof. destruct r as [[r1|] s1]; cbn; [eauto|congruence]. Qed.
Theorem C81_hypotheses :
  (0 < nd_len (s_bounds (mca mc81)))%nat /\ s_return_all (mca mc81) = true /\ s_return_all (hma hm81) = true /\
  @ntrunc NDF (@nmul (FArith DF) (mca_perc mc81) (nN (nd_len (s_bounds (mca mc81))))) = Some 1%Z /\
  ((3 - 1) mod ((Z.of_nat (nd_len (s_bounds (mca mc81))) + Z.max 1 1 - 1) / Z.max 1 1) = 0)%Z /\
  (exists r1 s1, mc_run 3 = (inl r1, s1)) /\ (exists r1 s1, hm_run 2 = (inl r1, s1)).
Proof.
  split; [cbn; lia|]. do 2 (split; [reflexivity|]). split; [vm_compute; reflexivity|].
  split; [reflexivity|]. split; apply returned81; vm_compute; discriminate.
Qed.
