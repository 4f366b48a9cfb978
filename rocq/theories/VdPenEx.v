(** C30, C54, C65: a call of vdcma with Penalize that meets the hypotheses of the theorems of VdFin.v
    and VdPen.v (exact arithmetic): two points per iteration, one of them a parent, every normal number
    drawn is one, the objective is constant. *)
From Coq Require Import Reals Lra Psatz Permutation.
From Verif Require Import Base Num NumR NumE Env Common DE Mat CMAES VDCMA Weights EvalVal Inst PlainEnv FeasPso FeasEx Valid Accept PropPop Calm
  VdReal Visit VdRun VdRunEx Cov CmReal CmRun CmRunEx Pen PenRun PenRunEx CalmCma PenCalm PenCalmEx VdFin VdPen.
Open Scope R_scope.

Definition EQ : Env ENum := Eval cbv delta [EP0 PlainEnv] in
  @mkEnv ENum nat unit
       (fun _ => 0%nat)
       (fun k => (Fin 0, S k)) (fun k => (Fin 1, S k)) (fun n k => (seq 0 n, S k)) (fun n k => (0%nat, S k))
       (fun x w => (inl (Fin 1), w))
       (fun _ _ w => (None, w)) (fun _ _ w => (None, w))
       (fun n _ => rev (seq 0 n))
       0%nat 1%nat (fun _ X => X) (fun _ _ f => f)
       (fun v => p_isort (N := ENum) v (seq 0 (length v)))
       (fun v q => @nadd EArith (nth 0 v (Fin 0)) q) (fun v => nth 0 v (Fin 0))
       (fun C => Some (map (fun _ => Fin 1) C, C)) (fun n => repeat (Fin 0) n).
#[local] Existing Instance EQ.

Lemma eq_ok : EnvOK.
Proof.
  assert (H : @EnvOK ENum EP) by apply ep_ok.
  destruct H. constructor; assumption.
Qed.
Lemma eq_pct : PctOK.
Proof. exact ep_pct. Qed.
Lemma eq_med : MedOK.
Proof. exact ep_med. Qed.
Lemma eq_empty : EmptyLen.
Proof. intros n. apply repeat_length. Qed.
Lemma eq_drawn g : drawn (fst (@e_randn ENum EQ g)).
Proof. split; [exact I|]. cbn. intros H. injection H. lra. Qed.
Lemma eq_val (x : list er) (y : er) : Val x y -> y = Fin 1.
Proof. intros (w & H). cbn in H. congruence. Qed.
Lemma eq_fin (x : list er) (y : er) : Val x y -> isfin y.
Proof. intros H. rewrite (eq_val _ _ H). exact I. Qed.

Lemma pargs_one : 1 / 2 * IZR (a_popsize (caa pargs)) < 2.
Proof. change (a_popsize (caa pargs)) with 2%Z. lra. Qed.
Lemma pargs_moves w : Moves pargs w.
Proof.
  apply (C54_one_parent_moves eq_ok eq_drawn pargs prows 1 (1 / 2) pargs_ok); [discriminate|discriminate|]. apply pargs_one.
Qed.
Lemma eq_raises n : ~ user_raises n.
Proof. intros [(x & u & u' & H)|(X & st & u & u' & H)]; cbn in H; discriminate. Qed.

(** The call returns, its x is one finite number, and its fun is one plus a penalty. *)
Theorem C65_vdcma_penalize_hypotheses w a0 :
  a_constraints (caa pargs) = Some "Penalize"%string /\ (2 <= a_popsize (caa pargs))%Z /\ Moves pargs (mkSt w [] a0) /\
  exists res st', exec (vdcma_minimize pargs) w a0 = (inl res, st') /\
    (exists x, r_x res = [Fin x]) /\ (exists y q, r_fun res = Fin (y + q) /\ y = 1 /\ 0 <= q).
Proof.
  split; [reflexivity|]. split; [cbn; lia|]. split; [apply pargs_moves|].
  destruct (C65_penalize_vdcma_returns eq_ok (fun g => proj1 (eq_drawn g)) eq_pct eq_med eq_empty eq_fin pargs prows 1 (1 / 2) pargs_ok) with (w := w) (a0 := a0)
    as (res & st' & Hx); try discriminate; try apply pargs_ready; try apply pargs_moves; try apply eq_raises; try reflexivity.
  exists res, st'. split; [exact Hx|]. split.
  - destruct (C54_vdcma_one_parent eq_ok eq_drawn pargs prows 1 (1 / 2) pargs_ok ltac:(discriminate) ltac:(discriminate) w a0 _ _ pargs_one Hx) as (_ & _ & H).
    destruct (H res eq_refl) as (L & v & E). rewrite E in *. rewrite map_length in L. destruct v as [|a [|]]; try discriminate. exists a. reflexivity.
  - destruct (C30_fun_vdcma eq_ok (fun g => proj1 (eq_drawn g)) eq_pct eq_med eq_empty eq_fin pargs prows 1 (1 / 2) pargs_ok ltac:(discriminate) ltac:(discriminate) eq_refl w a0 _ _ (pargs_moves _) Hx) as (_ & H).
    destruct (H res eq_refl) as (y & q & V & Q & E). apply eq_val in V. exists 1, q. split; [|split; [reflexivity|exact Q]]. rewrite E. injection V as ->. reflexivity.
Qed.

(** The loop reaches its first state, and there the fitness of both rows is one plus a penalty. *)
Theorem C30_states_vdcma_hypotheses : exists w P s0 w0 t,
  vd_begin pargs w = (inl (P, s0), w0) /\ (exists x, In x (vs_vvec s0) /\ x <> Fin 0) /\
  visited (vd_drv P) false Moved 0 s0 w0 1 t /\ Moved t /\ length (vs_fit t) = 2%nat /\
  Forall (fun y => exists q, y = Fin (1 + q) /\ 0 <= q) (vs_fit t).
Proof.
  set (w := @mkSt ENum EQ (0%nat, tt) [] None). destruct (C65_vdcma_penalize_hypotheses (0%nat, tt) None) as (_ & _ & HM & res & st' & Hx & _).
  unfold exec in Hx. rewrite vdcma_begin, bind_at in Hx. fold w in Hx, HM. unfold Moves in HM.
  pose proof (safe_gives _ _ _ _ (begin_ok eq_ok (fun g => proj1 (eq_drawn g)) pargs prows 1 (1 / 2) pargs_ok ltac:(discriminate) ltac:(discriminate) (fun _ _ => True)) w) as G3.
  destruct (vd_begin pargs w) as [[[P s0]|e] w0] eqn:EB; [|discriminate]. destruct (HM _ _ _ eq_refl) as [Hv HQ]. destruct (G3 _ _ eq_refl) as (HP & _ & Hp & _). cbn [fst snd] in *.
  change (fuel (a_maxiter (caa pargs))) with (S (Nat.pred (fuel (a_maxiter (caa pargs))))) in Hx. cbn [drive] in Hx. rewrite bind_at in Hx.
  destruct (d_step (vd_drv P) (0 + 1)%Z s0 w0) as [[[t st]|e] w1] eqn:ES; [|discriminate].
  assert (Hvis : visited (vd_drv P) false Moved 0 s0 w0 1 t) by (eapply (vis_here (vd_drv P) false Moved 0); exact ES).
  exists w, P, s0, w0, t. split; [exact EB|]. split; [exact Hv|]. split; [exact Hvis|].
  split; [eapply (HQ 1%Z), (vis_here (vd_drv P) _ _ 0); exact ES|].
  pose proof (C30_states_vdcma eq_ok (fun g => proj1 (eq_drawn g)) eq_pct eq_med eq_empty eq_fin pargs prows 1 (1 / 2) pargs_ok ltac:(discriminate) ltac:(discriminate) eq_refl w P s0 w0 false 1 t EB Hv Hvis) as HF.
  destruct (vrun_inv eq_ok (fun g => proj1 (eq_drawn g)) eq_pct eq_med eq_empty eq_fin pargs prows 1 (1 / 2) pargs_ok ltac:(discriminate) ltac:(discriminate) eq_refl _ _ _ _ _ _ _ EB Hv Hvis) as (_ & _ & _ & [HVP _ _]).
  split; [rewrite (vq_fit _ _ _ HVP); exact Hp|]. clear - HF. induction HF as [|x y l l' (v & q & V & Q & ->) HF IH]; constructor; [|exact IH].
  apply eq_val in V. injection V as ->. exists q. split; [reflexivity|exact Q].
Qed.
