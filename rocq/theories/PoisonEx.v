(** C82: runs from a starting point with a NaN coordinate. *)
From Coq Require Import Floats.
From Verif Require Import Base Num NumR NumE NumF Env Common DE CPSO Sample Hoare EvalRules Gen Steps
  Best Inst Disc Valid Accept Chain Mcmc PropMc Hmc PropHmc PropCb Demo ExPop HmcReal SampInst ExSamp HmcEq Wall WallEx Poison.

(** the objective looks at the second coordinate only *)
Definition f_second (x : list float) : float + nat := let v := nth 1 x 0%float in inl (v * v)%float.
Definition mcn : @MCArgs NWF := @mkMCArgs NWF (wargs [nan; 0.5]%float 4 0.5%float) 1%float.
Definition hmn : @HMCArgs NWF := @mkHMCArgs NWF (wargs [nan; 0.5]%float 3 0.125%float) 1 JacNone 0.03125%float.
Definition nan_first (X : list (list float)) : bool := forallb (fun x => isnan (nth 0 x 0%float) && negb (isnan (nth 1 x 0%float))) X.

(** three accepted or refused moves that change the second coordinate *)
Definition wn := script [0.5; 0.5; 0.5]%float [0.25; -0.5; 0; -0.5; 1; 8]%float.
Lemma nan_at_x0 y : @NanAt NWF 0 [nan; y]%float.
Proof. split; [cbn; lia|]. intro H. vm_compute in H. discriminate. Qed.

(** all hypotheses of C82 hold; the values are numbers throughout, the moves of the second coordinate are real *)
Theorem C82_runs :
  0 < nd_len (s_bounds (mca mcn)) /\ hma_jac hmn = JacNone /\
  s_x0 (mca mcn) = Some (@D1 (FArith WF) [nan; 0.5]%float) /\ s_x0 (hma hmn) = Some (@D1 (FArith WF) [nan; 0.5]%float) /\
  @NanAt NWF 0 [nan; 0.5]%float /\
  (exists res st' X F, @exec NWF (DemoEnv WF f_second) _ (@mcmc_sample NWF (DemoEnv WF f_second) mcn) wn None = (inl res, st') /\
     sr_all res = Some (X, F) /\ nan_first X = true /\
     veq F [0.25; 0.0625; 0; 0]%float = true) /\
  (exists res st' X F, @exec NWF (DemoEnv WF f_second) _ (@hmc_sample NWF (DemoEnv WF f_second) hmn) wh None = (inl res, st') /\
     sr_all res = Some (X, F) /\ nan_first X = true /\ length X = 3).
Proof.
  split; [cbn; lia|]. split; [reflexivity|]. split; [reflexivity|]. split; [reflexivity|]. split; [apply nan_at_x0|]. split.
  - destruct (ran (E := DemoEnv WF f_second) (@mcmc_sample NWF (DemoEnv WF f_second) mcn) wn None (fun res st =>
      match sr_all res with
      | Some (X, F) => nan_first X && veq F [0.25; 0.0625; 0; 0]%float
      | None => false end)) as (res & st & Hx & HP); [vm_compute; reflexivity|].
    destruct (sr_all res) as [[X F]|] eqn:Ha; [|discriminate].
    rewrite andb_true_iff in HP. destruct HP. exists res, st, X, F. auto.
  - destruct (ran (E := DemoEnv WF f_second) (@hmc_sample NWF (DemoEnv WF f_second) hmn) wh None (fun res st =>
      match sr_all res with
      | Some (X, F) => nan_first X && (length X =? 3)
      | None => false end)) as (res & st & Hx & HP); [vm_compute; reflexivity|].
    destruct (sr_all res) as [[X F]|] eqn:Ha; [|discriminate].
    rewrite andb_true_iff, Nat.eqb_eq in HP. destruct HP. exists res, st, X, F. auto.
Qed.
