(** C12: with constraints="Penalize" cmaes and vdcma evaluate points of the box only. *)
From Coq Require Import Reals Lra Permutation.
From Verif Require Import Base Num NumR NumE Env Common DE Mat CMAES VDCMA Hoare EvalRules Gen Steps Runs Inst Laws Safe Feas FeasPso DimCma.
Open Scope R_scope.

Section PenBox.
  Notation evec := (@vec (@num_arith ENum)).

  (** A standardised coordinate: NaN or in [-1, 1]. *)
  Definition std1 (v : er) : Prop := match v with Fin r => -1 <= r <= 1 | NaN => True | _ => False end.

  Lemma clip1_std v : std1 (@clip1 EArith v).
  Proof.
    unfold clip1. destruct v as [r| | |]; cbn; rewrite ?Rlit0; cbn.
    - destruct (Rltb r (IZR (-1))) eqn:H1; cbn.
      + destruct (Rltb (IZR 1) (IZR (-1))) eqn:H2; cbn; rb; lra.
      + destruct (Rltb (IZR 1) r) eqn:H2; cbn; rb; lra.
    - lra.
    - destruct (Rltb (IZR 1) (IZR (-1))) eqn:H2; cbn; rb; lra.
    - exact I.
  Qed.

  Lemma unstd_in l u v : l <= u -> std1 v ->
    @inb EArith (Fin l, Fin u)
      (er_add (er_mul v (er_mul (@nlit EArith 5 (-1)) (er_sub (Fin u) (Fin l))))
              (er_mul (@nlit EArith 5 (-1)) (er_add (Fin u) (Fin l)))).
  Proof.
    intros Hlu Hv. unfold inb. cbn [fst snd nltb EArith nlit er_sub er_add er_mul].
    replace (Rlit 5 (-1)) with (1/2) by (unfold Rlit; cbn; lra).
    destruct v as [r| | |]; cbn in *; try tauto.
    rb. split; nra.
  Qed.

  Lemma unstd_box (rows : list evec) (x : evec) : FiniteBox rows -> length x = length rows -> Forall std1 x ->
    @Box EArith rows (@unstandardize ENum (@cma_xm ENum (lows rows) (ups rows)) (@cma_xstd ENum (lows rows) (ups rows)) x).
  Proof.
    intros HF Hl Hx. apply Box_iff. revert x Hl Hx.
    induction HF as [|r rows (l & u & -> & Hlu) HF IH]; intros [|v x] Hl Hx; try discriminate; cbn.
    - constructor.
    - inversion Hx; subst. constructor; [|apply IH; [cbn in Hl; elia|assumption]].
      apply unstd_in; assumption.
  Qed.
End PenBox.

Section C12.
  Context {E : Env ENum}.
  Context (HE : EnvOK).

  Section Run.
    Context (A : CMAArgs) (rows : @matrix (@num_arith ENum)).
    Context (Hb : a_bounds (caa A) = D2 2 rows) (HF : FiniteBox rows).
    Context (Hc : a_constraints (caa A) = Some "Penalize"%string).
    Context (HB : a_backend (caa A) = Some "mpi"%string -> BcastKeeps (Box rows)).

    Let Pv (x : @vec (@num_arith ENum)) := length x = length rows /\ Forall std1 x.
    Lemma pv_pen (x : @vec (@num_arith ENum)) : length x = length rows -> Pv (if is_pen A then map clip1 x else x).
    Proof.
      intros H. unfold is_pen. rewrite Hc. cbn [String.eqb Ascii.eqb Bool.eqb]. split; [rewrite map_length; exact H|].
      apply Forall_forall. intros v Hv. apply in_map_iff in Hv. destruct Hv as (y & <- & _). apply clip1_std.
    Qed.
    Lemma pv_box x : Pv x -> Box rows (unstandardize (cma_xm (lows rows) (ups rows)) (cma_xstd (lows rows) (ups rows)) x).
    Proof. intros [H1 H2]. apply (unstd_box rows x HF H1 H2). Qed.

    (** Every point given to the objective (also when the run fails), every population and best
        point given to the callback and the returned x respect the bounds; coordinates can be NaN. *)
    Theorem C12_cmaes (HEig : EighRows) w a0 r st' :
      exec (cmaes_minimize A) w a0 = (r, st') ->
      (forall x, In x (points (tr st')) -> Box rows x) /\
      (forall X st, In (X, st) (cbs (tr st')) -> CbBox rows X st) /\
      (forall res, r = inl res -> Box rows (r_x res)).
    Proof.
      intros Hx.
      destruct (safe_exec _ _ _ _ _ _ _ _ (safe_cmaes HE A rows Hb Pv (Box rows) pv_pen pv_box HB HEig) Hx) as (H1 & H2 & H3).
      split; [exact H1|]. split; [|exact H3]. intros X st Hi. apply (H2 X st Hi).
    Qed.

    Theorem C12_vdcma w a0 r st' :
      exec (vdcma_minimize A) w a0 = (r, st') ->
      (forall x, In x (points (tr st')) -> Box rows x) /\
      (forall X st, In (X, st) (cbs (tr st')) -> CbBox rows X st) /\
      (forall res, r = inl res -> Box rows (r_x res)).
    Proof.
      intros Hx.
      destruct (safe_exec _ _ _ _ _ _ _ _ (safe_vdcma HE A rows Hb Pv (Box rows) pv_pen pv_box HB) Hx) as (H1 & H2 & H3).
      split; [exact H1|]. split; [|exact H3]. intros X st Hi. apply (H2 X st Hi).
    Qed.
  End Run.
End C12.
