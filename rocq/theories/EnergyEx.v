(** Data meeting the hypotheses of C71: a quadratic objective with two different curvatures, exact
    arithmetic. *)
From Coq Require Import Reals Lra.
From Verif Require Import Base Num NumR NumE Env Common DE Sample Hoare EvalRules Gen Steps Best Inst Disc
  Valid Accept Chain Mcmc PropMc Hmc PropHmc HmcEq HmcReal SampInst PlainEnv FeasEx CalmCma Energy.
Open Scope R_scope.

Definition qa (i : nat) : R := match i with O => 1 | _ => 4 end.
Definition qm (i : nat) : R := 1 / 4.
Definition fq (x : list er) : er := Fin (quad qa qm 2 (map val x)).
Definition qbox : list (R * R) := [(-1, 1); (0, 4)].
Definition hmq (x0 : option (@nd EArith)) : @HMCArgs ENum :=
  @mkHMCArgs ENum (@mkSArgs ENum true (@D2 EArith 2 (map (fun b => [Fin (fst b); Fin (snd b)]) qbox)) x0 5
     (@D0 EArith (Fin (1 / 2))) false None None true CbNone) 3 JacNone (Fin (1 / 100)).

Lemma EE_quiet f n : ~ @samp_raises ENum (EE f) n.
Proof. intros [(x & w & w' & H)|(x & st & w & w' & H)]; cbn in H; discriminate. Qed.

(** All hypotheses of C71_quadratic hold together and the call returns; the steps are 1/2 and 1, so
    both coordinates meet the condition s^2 a <= 4 under which an angle exists. *)
Theorem C71_hypotheses x0 w a0 : let E := EE fq in
  x0 = None \/ x0 = Some (@D1 EArith (map Fin [1; 3])) ->
  EnvOK /\ PureFin (quad qa qm 2) /\ (forall r, exists z, fst (e_randn r) = Fin z) /\
  hma_jac (hmq x0) = JacNone /\ hma_fd (hmq x0) = Fin (1 / 100) /\ 1 / 100 <> 0 /\
  s_constraints (hma (hmq x0)) <> Some "Reject"%string /\
  (forall k, user_step (hma (hmq x0)) k = Fin (1 / 2)) /\
  exists res st', exec (hmc_sample (hmq x0)) w a0 = (inl res, st').
Proof.
  intros E Hx0. split; [apply EE_OK|]. split.
  { intros x k. exists k. cbn. unfold fq. rewrite map_map. cbn. rewrite map_id. reflexivity. }
  split; [intros r; exists (1 / 2); reflexivity|].
  do 2 (split; [reflexivity|]). split; [lra|]. split; [discriminate|]. split; [intros k; reflexivity|].
  apply (@C65_hmc_returns ENum E).
  - constructor; [|cbn; lia|discriminate]. constructor; [reflexivity| | |cbn; lia|discriminate].
    2:{ intros _. unfold FiniteRange. cbn. repeat constructor; cbn; apply Reqb_true; lra. }
    exists 2%nat. split; [eexists; split; [reflexivity|reflexivity]|].
    split; [|exact Logic.I]. destruct Hx0 as [-> | ->]; [exact Logic.I|eexists; split; reflexivity].
  - reflexivity.
  - intros n. apply EE_quiet.
Qed.

(** The angle of the closed form: any step with 0 < s and 0 <= s^2 a <= 4 has one. *)
Theorem C71_angle a s : 0 < s -> 0 <= s ^ 2 * a <= 4 ->
  exists th om, cos th = 1 - s ^ 2 * a / 2 /\ sin th = s * om /\ om ^ 2 = a * (1 - s ^ 2 * a / 4).
Proof.
  intros Hs Ha. exists (acos (1 - s ^ 2 * a / 2)), (sin (acos (1 - s ^ 2 * a / 2)) / s).
  assert (Hc : cos (acos (1 - s ^ 2 * a / 2)) = 1 - s ^ 2 * a / 2) by (apply cos_acos; lra).
  split; [exact Hc|]. split; [field; lra|].
  pose proof (sin2_cos2 (acos (1 - s ^ 2 * a / 2))) as H. rewrite Hc in H. unfold Rsqr in H.
  set (t := sin _) in *. assert (Ht : t ^ 2 = s ^ 2 * (a * (1 - s ^ 2 * a / 4))) by lra.
  replace ((t / s) ^ 2) with (t ^ 2 / s ^ 2) by (field; lra). rewrite Ht. field. lra.
Qed.
