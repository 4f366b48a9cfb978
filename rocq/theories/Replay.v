(** C69: in exact arithmetic a pso run with constraints = "Shrink" can be replayed from its
    evaluations alone, and every particle goes as far as the bounds allow. *)
From Coq Require Import Reals Lra Permutation.
From Verif Require Import Base Num NumR NumE Env Common DE CPSO Hoare EvalRules Gen Steps Hist Runs Best Inst
  HistFacts HistBest PropPop Laws Safe Feas FeasPso CmaStop Trial Restart Explore Flight.
Open Scope R_scope.

Local Notation evec := (list er).
Local Notation "v '@' j" := (@nth er j v (Fin 0)) (at level 9, no associativity).
Local Notation row X i := (@nth (list er) i X []).

(** ** Specification *)

(** The point reached from [x] after the fraction [q] of the move [u]. *)
Definition along (q : R) (x u : evec) : evec :=
  map (fun au => er_add (fst au) (er_mul (snd au) (Fin q))) (combine x u).

(** [x'] is the last point of the segment from [x] to [x + u] that is within the bounds. *)
Definition Furthest (rows : @matrix EArith) (x u x' : evec) : Prop :=
  exists q, 0 <= q <= 1 /\ x' = along q x u /\ FBox rows x' /\
    forall q', 0 <= q' <= 1 -> FBox rows (along q' x u) -> q' <= q.

(** How [x] was reached from [y]. *)
Definition vdiff (x y : evec) : evec := map (fun ab => er_sub (fst ab) (snd ab)) (combine x y).

(** The [n]-th evaluation of the run. *)
Definition pt (l : list (evec * er)) (n : nat) : evec := fst (nth n l ([], Fin 0)).
Definition val (l : list (evec * er)) (n : nat) : er := snd (nth n l ([], Fin 0)).

Section Replay.
  Context {E : Env ENum}.

  (** The evaluation number [n >= p] of a swarm of [p] particles follows from the earlier ones.
      [x]: where this particle was evaluated last; [v]: how it came there; [k]: its best evaluation;
      [m]: the best evaluation of all; in deferred mode only complete generations count. *)
  Definition Replay (A : CPSOArgs) (rows : matrix) (p : nat) (deferred : bool)
      (l : list (evec * er)) (n : nat) : Prop :=
    let d := length rows in
    let x := pt l (n - p) in
    let v := if (n <? 2 * p)%nat then repeat (Fin 0) d else vdiff x (pt l (n - 2 * p)) in
    let known := if deferred then (n / p * p)%nat else n in
    exists k m u,
      (k < known)%nat /\ (k mod p = n mod p)%nat /\
      (forall j, (j < known)%nat -> (j mod p = n mod p)%nat -> er_ltb (val l j) (val l k) = false) /\
      (m < known)%nat /\
      ((forall j, (j < known)%nat -> val l j <> NaN) ->
       forall j, (j < known)%nat -> er_ltb (val l j) (val l m) = false) /\
      Velocity A d x v (pt l k) (pt l m) u /\
      Furthest rows x u (pt l n).
End Replay.



(** ** Geometry *)
Lemma FBox_er (rows : list evec) (x : evec) :
  FBox rows x <-> (length x = length rows /\
    forall i, (i < length rows)%nat -> er_ltb x@i (row rows i)@0 = false /\ er_ltb (row rows i)@1 x@i = false) /\
  Forall (fun z => er_leb z z = true) x.
Proof. reflexivity. Qed.

Lemma Factor_er (rows : list evec) (x u : evec) (q : er) :
  Factor (N := ENum) rows x u q <-> exists j, (j < length rows)%nat /\
    ((er_ltb (er_add x@j u@j) (row rows j)@0 = true /\ q = er_div (er_sub (row rows j)@0 x@j) u@j) \/
     (er_ltb (row rows j)@1 (er_add x@j u@j) = true /\ q = er_div (er_sub (row rows j)@1 x@j) u@j)).
Proof. reflexivity. Qed.

Lemma FBox_at (rows : list evec) (x : evec) : FiniteBox rows ->
  (FBox rows x <-> length x = length rows /\
     forall j, (j < length rows)%nat -> exists lo hi a,
       row rows j = [Fin lo; Fin hi] /\ x@j = Fin a /\ lo <= a <= hi).
Proof.
  intros HF.
  assert (HR : forall j, (j < length rows)%nat -> exists lo hi, row rows j = [Fin lo; Fin hi] /\ lo <= hi).
  { intros j Hj. unfold FiniteBox in HF. rewrite Forall_forall in HF. apply HF, nth_In, Hj. }
  rewrite FBox_er. split.
  - intros [[Hl H] HN]. split; [exact Hl|]. intros j Hj. destruct (HR j Hj) as (lo & hi & Hr & Hlh).
    specialize (H j Hj). rewrite Forall_forall in HN. rewrite Hr in H.
    specialize (HN x@j (nth_In _ _ (eq_ind_r (fun n => (j < n)%nat) Hj Hl))). cbn beta in HN. exists lo, hi.
    destruct (x@j) as [a| | |]; cbn in H, HN; destruct H as [H1 H2]; try discriminate.
    exists a. repeat split; auto; rb; lra.
  - intros [Hl H]. split; [split; [exact Hl|]|].
    + intros j Hj. destruct (H j Hj) as (lo & hi & a & Hr & Ha & Hb). rewrite Hr, Ha. cbn. split; rb; lra.
    + apply Forall_forall. intros z Hz. destruct (In_nth x z (Fin 0) Hz) as (j & Hj & <-).
      rewrite Hl in Hj. destruct (H j Hj) as (lo & hi & a & Hr & Ha & Hb). rewrite Ha. cbn. rb. lra.
Qed.

Lemma along_len q x u : length u = length x -> length (along q x u) = length x.
Proof. intros H. unfold along. rewrite map_length, combine_length. lia. Qed.
Lemma along_at q x u j : length u = length x -> (j < length x)%nat ->
  (along q x u)@j = er_add x@j (er_mul u@j (Fin q)).
Proof.
  intros H Hj. unfold along.
  rewrite (nth_indep _ _ ((fun au => er_add (fst au) (er_mul (snd au) (Fin q))) (Fin 0, Fin 0)))
    by (rewrite map_length, combine_length; lia).
  rewrite (map_nth (fun au => er_add (fst au) (er_mul (snd au) (Fin q)))), combine_nth by lia. reflexivity.
Qed.

Lemma er_lt_fin a b : er_ltb (Fin a) (Fin b) = true <-> a < b.
Proof. cbn. apply Rltb_true. Qed.

Section Geometry.
  Variables (rows : list evec) (x u : evec).
  Hypothesis HF : FiniteBox rows.
  Hypothesis Hx : FBox rows x.
  Hypothesis Hul : length u = length rows.
  Hypothesis Hu : Forall isfin u.

  Lemma at_j j : (j < length rows)%nat -> exists lo hi a b,
    row rows j = [Fin lo; Fin hi] /\ x@j = Fin a /\ lo <= a <= hi /\ u@j = Fin b.
  Proof.
    intros Hj. destruct (proj1 (FBox_at rows x HF) Hx) as [_ H]. destruct (H j Hj) as (lo & hi & a & H1 & H2 & H3).
    rewrite Forall_forall in Hu. specialize (Hu u@j). destruct (u@j) as [b| | |] eqn:Hb.
    1: exists lo, hi, a, b; auto.
    all: exfalso; apply Hu; rewrite <- Hb; apply nth_In; elia.
  Qed.

  (** A factor is a number in [0, 1) that takes one coordinate exactly to its bound. *)
  Lemma factor_inv q : Factor (N := ENum) rows x u q -> exists j lo hi a b r,
    (j < length rows)%nat /\ row rows j = [Fin lo; Fin hi] /\ x@j = Fin a /\ u@j = Fin b /\ lo <= a <= hi /\
    q = Fin r /\ 0 <= r < 1 /\
    ((a + b < lo /\ b < 0 /\ b * r = lo - a) \/ (hi < a + b /\ 0 < b /\ b * r = hi - a)).
  Proof.
    rewrite Factor_er. intros (j & Hj & H). destruct (at_j j Hj) as (lo & hi & a & b & H1 & H2 & H3 & H4).
    rewrite H1, H2, H4 in H. cbn in H.
    exists j, lo, hi, a, b. destruct H as [[H ->]|[H ->]]; rb.
    - assert (Hb : b < 0) by lra. exists ((lo - a) / b). destruct (Req_EM_T b 0) as [|_]; [lra|].
      assert (Hr : b * ((lo - a) / b) = lo - a) by (field; lra).
      repeat split; auto; try lra.
      + apply Rmult_le_reg_l with (- b); [lra|]. lra.
      + apply Rmult_lt_reg_l with (- b); lra.
    - assert (Hb : 0 < b) by lra. exists ((hi - a) / b). destruct (Req_EM_T b 0) as [|_]; [lra|].
      assert (Hr : b * ((hi - a) / b) = hi - a) by (field; lra).
      repeat split; auto; try lra.
      + apply Rmult_le_reg_l with b; lra.
      + apply Rmult_lt_reg_l with b; lra.
  Qed.

  Definition out_at (j : nat) : Prop := exists lo hi a b,
    row rows j = [Fin lo; Fin hi] /\ x@j = Fin a /\ u@j = Fin b /\ (a + b < lo \/ hi < a + b).

  Lemma factor_of j : (j < length rows)%nat -> out_at j -> exists lo hi a b r,
    row rows j = [Fin lo; Fin hi] /\ x@j = Fin a /\ u@j = Fin b /\
    Factor (N := ENum) rows x u (Fin r) /\
    ((a + b < lo /\ b < 0 /\ b * r = lo - a) \/ (hi < a + b /\ 0 < b /\ b * r = hi - a)).
  Proof.
    intros Hj (lo & hi & a & b & H1 & H2 & H4 & H5). destruct (at_j j Hj) as (lo' & hi' & a' & b' & H1' & H2' & H3 & H4').
    rewrite H1 in H1'. rewrite H2 in H2'. injection H1' as <- <-. injection H2' as <-. clear H4' b'.
    assert (HFa : forall r, b <> 0 ->
      (a + b < lo /\ r = (lo - a) / b) \/ (hi < a + b /\ r = (hi - a) / b) -> Factor (N := ENum) rows x u (Fin r)).
    { intros r Hb0 Hr. rewrite Factor_er. exists j. split; [exact Hj|]. rewrite H1, H2, H4. cbn. destruct (Req_EM_T b 0) as [|_]; [lra|].
      destruct Hr as [[Hr ->]|[Hr ->]]; [left|right]; (split; [rb; lra|reflexivity]). }
    destruct H5 as [H5|H5].
    - assert (b < 0) by lra. exists lo, hi, a, b, ((lo - a) / b). repeat split; auto.
      + apply HFa; [lra|]. left. auto.
      + left. repeat split; try lra. field. lra.
    - assert (0 < b) by lra. exists lo, hi, a, b, ((hi - a) / b). repeat split; auto.
      + apply HFa; [lra|]. right. auto.
      + right. repeat split; try lra. field. lra.
  Qed.

  Lemma out_dec j : (j < length rows)%nat -> out_at j \/
    exists lo hi a b, row rows j = [Fin lo; Fin hi] /\ x@j = Fin a /\ u@j = Fin b /\ lo <= a + b <= hi.
  Proof.
    intros Hj. destruct (at_j j Hj) as (lo & hi & a & b & H1 & H2 & H3 & H4).
    destruct (Rlt_dec (a + b) lo); [left; exists lo, hi, a, b; auto|].
    destruct (Rlt_dec hi (a + b)); [left; exists lo, hi, a, b; auto|].
    right. exists lo, hi, a, b. repeat split; auto; lra.
  Qed.

  Lemma some_out : (exists j, (j < length rows)%nat /\ out_at j) \/
    (forall j, (j < length rows)%nat -> exists lo hi a b,
       row rows j = [Fin lo; Fin hi] /\ x@j = Fin a /\ u@j = Fin b /\ lo <= a + b <= hi).
  Proof.
    enough (H : forall n, (n <= length rows)%nat -> (exists j, (j < n)%nat /\ out_at j) \/
      (forall j, (j < n)%nat -> exists lo hi a b,
         row rows j = [Fin lo; Fin hi] /\ x@j = Fin a /\ u@j = Fin b /\ lo <= a + b <= hi)) by (apply H; lia).
    induction n as [|n IH]; intros Hn; [right; intros; lia|].
    destruct IH as [(j & Hj & Ho)|IH]; [lia|left; exists j; split; [lia|exact Ho]|].
    destruct (out_dec n) as [Ho|Hn']; [lia|left; exists n; split; [lia|exact Ho]|].
    right. intros j Hj. destruct (Nat.eq_dec j n) as [->|]; [exact Hn'|apply IH; lia].
  Qed.

  (** Shrinking goes to the last feasible point of the segment. *)
  Lemma Shrunk_furthest c (v : evec) : Shrunk (N := ENum) (Some c) rows x u v ->
    exists q, 0 <= q <= 1 /\ (forall j, (j < length rows)%nat -> v@j = er_mul u@j (Fin q)) /\
      length v = length rows /\ FBox rows (along q x u) /\
      (forall q', 0 <= q' <= 1 -> FBox rows (along q' x u) -> q' <= q).
  Proof.
    cbn [Shrunk]. intros (Hvl & q & Hv & Hex & Hle & H1).
    assert (Hxl : length x = length rows) by apply Hx.
    assert (Hux : length u = length x) by (elia).
    assert (Hnum : forall q', Factor (N := ENum) rows x u q' -> @isnum EArith q').
    { intros q' HF'. destruct (factor_inv q' HF') as (j & lo & hi & a & b & r & _ & _ & _ & _ & _ & -> & Hr & _).
      unfold isnum. cbn. rb. lra. }
    specialize (Hle EOrd Hnum).
    change (forall j, (j < @length er u)%nat -> v@j = er_mul u@j q) in Hv. rewrite Hul in Hv.
    change (@length er v = @length er u) in Hvl.
    destruct some_out as [(j0 & Hj0 & Ho)|Hin].
    - destruct (factor_of j0 Hj0 Ho) as (lo0 & hi0 & a0 & b0 & r0 & _ & _ & _ & Hf0 & _).
      destruct (factor_inv q (Hex (ex_intro _ _ Hf0))) as (j & lo & hi & a & b & r & Hj & G1 & G2 & G3 & G4 & -> & Hr & G5).
      exists r. split; [lra|]. split; [exact Hv|]. split; [elia|]. split.
      + apply FBox_at; [exact HF|]. split; [rewrite along_len; auto|]. intros i Hi.
        destruct (at_j i Hi) as (li & hi' & ai & bi & K1 & K2 & K3 & K4).
        exists li, hi', (ai + bi * r). split; [exact K1|]. split.
        { rewrite along_at, K2, K4; [reflexivity|exact Hux|elia]. }
        destruct (out_dec i Hi) as [Hoi|(l2 & h2 & a2 & b2 & M1 & M2 & M3 & M4)].
        * destruct (factor_of i Hi Hoi) as (l2 & h2 & a2 & b2 & r2 & M1 & M2 & M3 & M4 & M5).
          rewrite K1 in M1. rewrite K2 in M2. rewrite K4 in M3. injection M1 as <- <-. injection M2 as <-. injection M3 as <-.
          specialize (Hle _ M4). cbn in Hle. rb.
          destruct M5 as [(N1 & N2 & N3)|(N1 & N2 & N3)].
          -- assert (bi * r2 <= bi * r) by (apply Rmult_le_compat_neg_l; lra).
             assert (0 <= - bi * r) by (apply Rmult_le_pos; lra). lra.
          -- assert (bi * r <= bi * r2) by (apply Rmult_le_compat_l; lra).
             assert (0 <= bi * r) by (apply Rmult_le_pos; lra). lra.
        * rewrite K1 in M1. rewrite K2 in M2. rewrite K4 in M3. injection M1 as <- <-. injection M2 as <-. injection M3 as <-.
          destruct (Rle_dec 0 bi).
          -- assert (bi * r <= bi * 1) by (apply Rmult_le_compat_l; lra).
             assert (0 <= bi * r) by (apply Rmult_le_pos; lra). lra.
          -- assert (bi * 1 <= bi * r) by (apply Rmult_le_compat_neg_l; lra).
             assert (0 <= - bi * r) by (apply Rmult_le_pos; lra). lra.
      + intros q' Hq' HB. destruct (proj1 (FBox_at _ _ HF) HB) as [_ Hat].
        destruct (Hat j Hj) as (l2 & h2 & z & K1 & K2 & K3). rewrite G1 in K1. injection K1 as <- <-.
        rewrite along_at, G2, G3 in K2; [|exact Hux|elia]. cbn in K2. injection K2 as <-.
        destruct G5 as [(N1 & N2 & N3)|(N1 & N2 & N3)].
        * apply Rmult_le_reg_l with (- b); lra.
        * apply Rmult_le_reg_l with b; lra.
    - assert (Hno : forall q', ~ Factor (N := ENum) rows x u q').
      { intros q' HF'. destruct (factor_inv q' HF') as (j & lo & hi & a & b & r & Hj & G1 & G2 & G3 & G4 & _ & _ & G5).
        destruct (Hin j Hj) as (l2 & h2 & a2 & b2 & M1 & M2 & M3 & M4).
        rewrite G1 in M1. rewrite G2 in M2. rewrite G3 in M3. injection M1 as <- <-. injection M2 as <-. injection M3 as <-. lra. }
      specialize (H1 Hno). subst q. exists 1. split; [lra|]. split.
      { exact Hv. }
      split; [elia|]. split; [|intros; lra].
      apply FBox_at; [exact HF|]. split; [rewrite along_len; auto|]. intros i Hi.
      destruct (Hin i Hi) as (l2 & h2 & a2 & b2 & M1 & M2 & M3 & M4).
      exists l2, h2, (a2 + b2 * 1). split; [exact M1|]. split; [|lra].
      rewrite along_at, M2, M3; [reflexivity|exact Hux|elia].
  Qed.
End Geometry.

Lemma vdiff_at (x y : evec) j : length y = length x -> (j < length x)%nat -> (vdiff x y)@j = er_sub x@j y@j.
Proof.
  intros H Hj. unfold vdiff.
  rewrite (nth_indep _ _ ((fun ab => er_sub (fst ab) (snd ab)) (Fin 0, Fin 0)))
    by (rewrite map_length, combine_length; lia).
  rewrite (map_nth (fun ab => er_sub (fst ab) (snd ab))), combine_nth by lia. reflexivity.
Qed.
Lemma vdiff_len x y : length y = length x -> length (vdiff x y) = length x.
Proof. intros H. unfold vdiff. rewrite map_length, combine_length. lia. Qed.

Lemma FBox_fin (rows : list evec) (x : evec) : FiniteBox rows -> FBox rows x -> length x = length rows /\ Forall isfin x.
Proof.
  intros HF Hx. destruct (proj1 (FBox_at rows x HF) Hx) as [Hl H]. split; [exact Hl|].
  apply Forall_forall. intros z Hz. destruct (In_nth x z (Fin 0) Hz) as (j & Hj & <-).
  change (@length er x = length rows) in Hl. rewrite Hl in Hj. destruct (H j Hj) as (lo & hi & a & _ & -> & _). exact I.
Qed.
Lemma isfin_at (x : evec) j : Forall isfin x -> isfin x@j.
Proof.
  intros H. destruct (Nat.lt_ge_cases j (length x)) as [Hj|Hj].
  - rewrite Forall_forall in H. apply H, nth_In, Hj.
  - rewrite nth_overflow by exact Hj. exact I.
Qed.
Lemma vdiff_fin x y : Forall isfin x -> Forall isfin y -> Forall isfin (vdiff x y).
Proof.
  intros Hx Hy. unfold vdiff. apply Forall_forall. intros z Hz. apply in_map_iff in Hz.
  destruct Hz as ([a b] & <- & Hab). rewrite Forall_forall in Hx, Hy.
  apply fin_sub; [apply Hx; exact (in_combine_l _ _ _ _ Hab)|apply Hy; exact (in_combine_r _ _ _ _ Hab)].
Qed.
Lemma evec_ext (x y : evec) : length x = length y -> (forall j, (j < length x)%nat -> x@j = y@j) -> x = y.
Proof. intros Hl H. apply (nth_ext x y (Fin 0) (Fin 0) Hl H). Qed.

(** ** Moves *)
Section Moves.
  Context {E : Env ENum} (HE : EnvOK).

  Lemma draws_fin d r : draws d r -> Forall isfin r.
  Proof.
    intros [_ H]. eapply Forall_impl; [|exact H]. intros z (s & ->).
    destruct (eo_rand HE s) as [H1 H2].
    assert (K : forall z : er, er_leb (Fin 0) z = true -> er_ltb z (Fin 1) = true -> isfin z)
      by (intros [] G1 G2; cbn in *; try discriminate; exact I).
    exact (K _ H1 H2).
  Qed.

  Lemma Move_furthest (A : CPSOArgs) c (rows : list evec) (x v b g x' v' : evec) : FiniteBox rows ->
    a_constraints (pa A) = Some c ->
    isfin (pa_inertia A) -> isfin (pa_cognitivity A) -> isfin (pa_sociability A) ->
    FBox rows x -> Forall isfin v -> FBox rows b -> FBox rows g ->
    Move A rows x v b g x' v' ->
    exists u, Velocity A (length rows) x v b g u /\ Furthest rows x u x' /\ v' = vdiff x' x.
  Proof.
    intros HF Hc Hw H1 H2 Hx Hv Hb Hg (u & HV & HS & Hxl & Hx'). exists u. split; [exact HV|].
    destruct HV as (Hul & r1 & r2 & Hr1 & Hr2 & Hu). apply draws_fin in Hr1, Hr2.
    destruct (FBox_fin _ _ HF Hx) as [Lx Fx]. destruct (FBox_fin _ _ HF Hb) as [Lb Fb]. destruct (FBox_fin _ _ HF Hg) as [Lg Fg].
    assert (Fu : Forall isfin u).
    { apply Forall_forall. intros z Hz. destruct (@In_nth er u z (Fin 0) Hz) as (j & Hj & <-).
      change (@length er u = length rows) in Hul. rewrite Hul in Hj. specialize (Hu j Hj).
      change (u@j = er_add (er_add (er_mul (pa_inertia A) v@j) (er_mul (er_mul (pa_cognitivity A) r1@j) (er_sub b@j x@j)))
                           (er_mul (er_mul (pa_sociability A) r2@j) (er_sub g@j x@j))) in Hu.
      change (isfin (u@j)). rewrite Hu.
      repeat first [apply fin_add | apply fin_mul | apply fin_sub | apply isfin_at | assumption]. }
    rewrite Hc in HS.
    destruct (Shrunk_furthest rows x u HF Hx Hul Fu c v' HS) as (q & Hq & Hvq & Lv & HB & Hmax).
    change (forall j, (j < length rows)%nat -> x'@j = er_add x@j v'@j) in Hx'.
    change (@length er x' = length rows) in Hxl. change (@length er u = length rows) in Hul.
    assert (Lux : length u = length x) by elia.
    assert (Hal : x' = along q x u).
    { apply evec_ext; [rewrite along_len; elia|]. intros j Hj. rewrite along_at by elia.
      rewrite Hx' by elia. rewrite Hvq by elia. reflexivity. }
    split; [exists q; rewrite Hal; auto|].
    apply evec_ext; [rewrite vdiff_len; elia|]. intros j Hj. rewrite vdiff_at by elia.
    rewrite Hx' by elia. rewrite Hvq by elia.
    pose proof (isfin_at x j Fx) as K1. pose proof (isfin_at u j Fu) as K2.
    destruct (x@j), (u@j); cbn in *; try tauto. f_equal. lra.
  Qed.
End Moves.

(** ** Flights *)
Section Run.
  Context {E : Env ENum} (HE : EnvOK).
  Variables (A : CPSOArgs) (rows : list evec) (p : nat) (deferred : bool) (c : string).
  Hypothesis HF : FiniteBox rows.
  Hypothesis Hc : a_constraints (pa A) = Some c.
  Hypothesis Hw : isfin (pa_inertia A).
  Hypothesis Hc1 : isfin (pa_cognitivity A).
  Hypothesis Hc2 : isfin (pa_sociability A).
  Hypothesis Hcomp : pa_competitivity A = None.
  Hypothesis Hp : (0 < p)%nat.

  Local Notation hist := (list (evec * er)).

  Definition since (l : hist) (k : nat) : evec :=
    if (k <? p)%nat then repeat (Fin 0) (length rows) else vdiff (pt l k) (pt l (k - p)).

  Record Seen (X V B : list evec) (f g : evec) (gf : er) (l : hist) : Prop := {
    se_len : (p <= length l)%nat;
    se_gen : deferred = true -> (length l mod p = 0)%nat;
    se_dims : length X = p /\ length V = p /\ length B = p /\ length f = p;
    se_X : forall i, (i < p)%nat -> exists k, (k < length l <= k + p)%nat /\ (k mod p = i)%nat /\
             row X i = pt l k /\ row V i = since l k;
    se_B : forall i, (i < p)%nat -> exists k, (k < length l)%nat /\ (k mod p = i)%nat /\
             row B i = pt l k /\ f@i = val l k /\
             forall j, (j < length l)%nat -> (j mod p = i)%nat -> er_ltb (val l j) (val l k) = false;
    se_g : exists m, (m < length l)%nat /\ g = pt l m /\ gf = val l m /\
             ((forall j, (j < length l)%nat -> val l j <> NaN) ->
              forall j, (j < length l)%nat -> er_ltb (val l j) (val l m) = false);
    se_run : forall n, (p <= n < length l)%nat -> Replay A rows p deferred l n }.

  Lemma nth_mix (l l' : hist) j : (j < length l)%nat -> nth j (l ++ l') ([], Fin 0) = nth j l ([], Fin 0).
  Proof. intros H. apply app_nth1, H. Qed.
  Lemma pt_mix l l' j : (j < length l)%nat -> pt (l ++ l') j = pt l j.
  Proof. intros H. unfold pt. rewrite nth_mix by exact H. reflexivity. Qed.
  Lemma val_mix l l' j : (j < length l)%nat -> val (l ++ l') j = val l j.
  Proof. intros H. unfold val. rewrite nth_mix by exact H. reflexivity. Qed.
  Lemma since_mix l l' k : (k < length l)%nat -> since (l ++ l') k = since l k.
  Proof. intros H. unfold since. rewrite !pt_mix by lia. reflexivity. Qed.

  Lemma known_le n : ((if deferred then n / p * p else n) <= n)%nat.
  Proof. destruct deferred; [|lia]. rewrite Nat.mul_comm. apply Nat.mul_div_le. lia. Qed.

  Lemma Replay_mix l l' n : (p <= n < length l)%nat ->
    Replay A rows p deferred l n -> Replay A rows p deferred (l ++ l') n.
  Proof.
    intros Hn. unfold Replay. pose proof (known_le n) as Hk. set (kn := if deferred then _ else _) in *.
    intros (k & m & u & K1 & K2 & K3 & K4 & K5 & K6 & K7).
    exists k, m, u. rewrite !pt_mix by lia. rewrite !val_mix by lia. repeat split; auto.
    - intros j Hj Hj'. rewrite val_mix by lia. auto.
    - intros HN j Hj. rewrite val_mix by lia. apply K5; [|exact Hj].
      intros i Hi. rewrite <- (val_mix l l') by lia. auto.
    - apply K6.
    - apply K6.
  Qed.

  Lemma FBox_pt (l : hist) j : (forall z, In z l -> FBox rows (fst z)) -> (j < length l)%nat -> FBox rows (pt l j).
  Proof. intros H Hj. apply H, nth_In, Hj. Qed.
  Lemma since_fin (l : hist) k : (forall z, In z l -> FBox rows (fst z)) -> (k < length l)%nat -> Forall isfin (since l k).
  Proof.
    intros H Hk. unfold since. destruct (k <? p)%nat.
    - apply Forall_forall. intros z Hz. apply repeat_spec in Hz. subst z. exact I.
    - apply vdiff_fin; apply (FBox_fin rows); auto; apply FBox_pt; auto; lia.
  Qed.

  Lemma same_class k n i : (k < n <= k + p)%nat -> (k mod p = i)%nat -> (n mod p = i)%nat -> k = (n - p)%nat.
  Proof.
    intros H1 H2 H3. pose proof (Nat.div_mod k p ltac:(lia)). pose proof (Nat.div_mod n p ltac:(lia)).
    assert (k / p < n / p)%nat by nia. assert (n / p <= k / p + 1)%nat by nia. nia.
  Qed.

  (** One move, given what was seen before it. *)
  Lemma seen_move (X V B : list evec) (f g : evec) (gf : er) (l : hist) i (x v : evec) : (forall z, In z l -> FBox rows (fst z)) ->
    Seen X V B f g gf l -> (i < p)%nat -> (forall (y : er) n (l' : hist), (length l <= n)%nat -> (n mod p = i)%nat -> (n < length l + p)%nat ->
      (deferred = false -> n = length l) -> nth n (l ++ l') ([], Fin 0) = (x, y) ->
      Move A rows (row X i) (row V i) (row B i) g x v ->
      Replay A rows p deferred (l ++ l') n /\ v = since (l ++ l') n).
  Proof.
    intros HB S Hi y n l' Hn1 Hn2 Hn3 Hdef Hnth HM.
    destruct (se_X _ _ _ _ _ _ _ S i Hi) as (k & Hk & Hki & HX & HV).
    destruct (se_B _ _ _ _ _ _ _ S i Hi) as (b & Hb & Hbi & HBb & Hfb & Hbest).
    destruct (se_g _ _ _ _ _ _ _ S) as (m & Hm & -> & -> & Hgbest).
    pose proof (se_len _ _ _ _ _ _ _ S) as HL.
    assert (Hkn : k = (n - p)%nat).
    { apply (same_class k n i); auto. split; [lia|].
      assert (Hx : (n < k + 2 * p)%nat) by lia.
      pose proof (Nat.div_mod k p ltac:(lia)). pose proof (Nat.div_mod n p ltac:(lia)).
      assert (n / p < k / p + 2)%nat by nia. nia. }
    assert (Hknown : (if deferred then n / p * p else n)%nat = length l).
    { pose proof (se_gen _ _ _ _ _ _ _ S) as Hg. destruct deferred; [|apply Hdef; reflexivity].
      specialize (Hg eq_refl).
      pose proof (Nat.div_mod (length l) p ltac:(lia)). pose proof (Nat.div_mod n p ltac:(lia)).
      pose proof (Nat.mod_upper_bound n p ltac:(lia)).
      assert (n / p = length l / p)%nat by nia. nia. }
    rewrite HX, HV, HBb in HM.
    destruct (Move_furthest HE A c rows (pt l k) (since l k) (pt l b) (pt l m) x v HF Hc Hw Hc1 Hc2
                (FBox_pt l k HB ltac:(lia)) (since_fin l k HB ltac:(lia)) (FBox_pt l b HB Hb) (FBox_pt l m HB Hm) HM)
      as (u & HVu & HFu & Hvd).
    assert (Hptn : pt (l ++ l') n = x) by (unfold pt; rewrite Hnth; reflexivity).
    split.
    - unfold Replay. cbn zeta. rewrite Hknown. exists b, m, u.
      rewrite Hptn. rewrite !val_mix by assumption. rewrite !(pt_mix l l') by (assumption || lia).
      rewrite <- Hkn. repeat split; auto; try congruence.
      + intros j Hj Hjm. rewrite val_mix by exact Hj. apply Hbest; congruence.
      + intros HN j Hj. rewrite val_mix by exact Hj. apply Hgbest; [|exact Hj].
        intros q Hq. rewrite <- (val_mix l l') by exact Hq. auto.
      + apply HVu.
      + replace (n <? 2 * p)%nat with (k <? p)%nat.
        2: { destruct (Nat.ltb_spec k p), (Nat.ltb_spec n (2 * p)); auto; lia. }
        replace (n - 2 * p)%nat with (k - p)%nat by lia. apply HVu.
    - unfold since. replace (n <? p)%nat with false by (symmetry; apply Nat.ltb_ge; lia).
      rewrite Hptn, <- Hkn, pt_mix by lia. exact Hvd.
  Qed.

  Lemma nth_rep {B} (v d : B) n : forall i, (i < n)%nat -> nth i (repeat v n) d = v.
  Proof. induction n as [|n IH]; intros [|i] Hi; cbn; try lia; auto. apply IH. lia. Qed.
  Lemma er_num (v : er) : v <> NaN <-> er_leb v v = true.
  Proof. destruct v; cbn; split; intros; try congruence. rb. lra. Qed.
  Lemma no_less (z y b : er) : er_ltb z b = false -> er_ltb y b = true -> er_ltb z y = false.
  Proof.
    intros H1 H2. destruct (er_ltb z y) eqn:H3; [|reflexivity].
    destruct z, y, b; cbn in *; try discriminate; rb; lra.
  Qed.
  Lemma no_less' (z y b : er) : er_ltb z b = false -> er_leb y b = true -> er_ltb z y = false.
  Proof.
    intros H1 H2. destruct (er_ltb z y) eqn:H3; [|reflexivity].
    destruct z, y, b; cbn in *; try discriminate; rb; lra.
  Qed.
  Lemma lt_irr (z : er) : er_ltb z z = false.
  Proof. destruct z; cbn; auto. rb. lra. Qed.

  Lemma combine_at (X : list evec) (y : evec) i : length y = length X -> 
    nth i (combine X y) ([], Fin 0) = (row X i, y@i).
  Proof. intros H. apply combine_nth. auto. Qed.

  (** The start of a flight. *)
  Lemma seen_start (X : list evec) (f : evec) k : length X = p -> length f = p ->
    Least (N := ENum) f k ->
    Seen X (repeat (repeat (Fin 0) (length rows)) p) X f (row X k) f@k (combine X f).
  Proof.
    intros HX Hf [Hk Hmin]. change (k < @length er f)%nat in Hk.
    assert (HL : length (combine X f) = p) by (rewrite combine_length; lia).
    assert (Hpt : forall i, pt (combine X f) i = row X i) by (intros i; unfold pt; rewrite combine_at by lia; reflexivity).
    assert (Hval : forall i, val (combine X f) i = f@i) by (intros i; unfold val; rewrite combine_at by lia; reflexivity).
    constructor; rewrite ?HL.
    - lia.
    - intros _. apply Nat.mod_same. lia.
    - rewrite repeat_length. auto.
    - intros i Hi. exists i. split; [lia|]. split; [apply Nat.mod_small, Hi|]. split; [symmetry; apply Hpt|].
      unfold since. apply Nat.ltb_lt in Hi as Hi'. rewrite Hi'. apply nth_rep, Hi.
    - intros i Hi. exists i. split; [lia|]. split; [apply Nat.mod_small, Hi|]. split; [symmetry; apply Hpt|].
      split; [symmetry; apply Hval|]. intros j Hj Hji. rewrite (Nat.mod_small _ _ Hj) in Hji. subst j. apply lt_irr.
    - exists k. split; [lia|]. split; [symmetry; apply Hpt|]. split; [symmetry; apply Hval|].
      intros HN j Hj. rewrite !Hval.
      assert (HN' : Forall (@isnum EArith) f).
      { apply Forall_forall. intros z Hz. destruct (@In_nth er f z (Fin 0) Hz) as (q & Hq & <-).
        apply er_num. rewrite <- Hval. apply HN. lia. }
      specialize (Hmin EOrd HN' j). change ((j < @length er f)%nat -> er_leb f@k f@j = true) in Hmin.
      eapply no_less'; [apply (lt_irr f@j)|apply Hmin; lia].
    - intros n Hn. lia.
  Qed.

  Local Ltac norm := unfold matrix, vec in *; change (@T (@num_arith ENum)) with er in *;
    change (@T EArith) with er in *.
  Lemma seen_flight ready (X V B : list evec) (f g : evec) (gf : er) (l : hist) :
    Flight A rows p deferred true ready X V B f g gf l ->
    (forall z, In z l -> FBox rows (fst z)) -> Seen X V B f g gf l.
  Proof.
    induction 1 as [X f k l HX HXd Hf Hpm Hl Hk
                   |X V B f g gf l X' V' y B' f' k l' Hd HFl IH HX' HV' Hy HB' Hf' Hmv Hpm Hl Hbb Hff Hk
                   |X V B f g gf l i x v y B' f' g' gf' Hd HFl IH Hi HM Hbf Hg
                   |X V B f g gf l X' V' B' f' HFl IH HR]; intros HBox; norm.
    - rewrite (Hl eq_refl). apply seen_start; auto.
    - specialize (IH (fun z Hz => HBox z (in_or_app _ _ _ (or_introl Hz)))).
      assert (HBl : forall z, In z l -> FBox rows (fst z)) by (intros z Hz; apply HBox, in_or_app; auto).
      rewrite (Hl eq_refl) in *. clear Hl Hpm l'. set (l' := combine X' y) in *.
      change (@length er y = p) in Hy. change (@length evec X' = p) in HX'.
      assert (HL' : length l' = p) by (unfold l'; rewrite combine_length; lia).
      pose proof (se_len _ _ _ _ _ _ _ IH) as HL. pose proof (se_gen _ _ _ _ _ _ _ IH Hd) as Hmod.
      assert (Hnew : forall i, (i < p)%nat -> nth (length l + i) (l ++ l') ([], Fin 0) = (row X' i, y@i)).
      { intros i Hi. rewrite app_nth2_plus. unfold l'. apply combine_at. lia. }
      assert (Hcl : forall i, (i < p)%nat -> ((length l + i) mod p = i)%nat).
      { intros i Hi. rewrite <- Nat.add_mod_idemp_l, Hmod by lia. apply Nat.mod_small, Hi. }
      assert (Hmove : forall i, (i < p)%nat ->
        Replay A rows p deferred (l ++ l') (length l + i) /\ row V' i = since (l ++ l') (length l + i)).
      { intros i Hi. eapply (seen_move X V B f g gf l i (row X' i) (row V' i) HBl IH Hi (y@i)); auto; try lia.
        intros Hd'. congruence. }
      assert (Hval : forall i, (i < p)%nat -> val (l ++ l') (length l + i) = y@i)
        by (intros i Hi; unfold val; rewrite Hnew by exact Hi; reflexivity).
      assert (Hpt : forall i, (i < p)%nat -> pt (l ++ l') (length l + i) = row X' i)
        by (intros i Hi; unfold pt; rewrite Hnew by exact Hi; reflexivity).
      assert (Hsplit : forall j, (j < length l + p)%nat ->
        (j < length l)%nat \/ exists i, (i < p)%nat /\ j = (length l + i)%nat /\ (j mod p = i)%nat).
      { intros j Hj. destruct (Nat.lt_ge_cases j (length l)) as [|Hge]; [left; assumption|right].
        exists (j - length l)%nat. split; [lia|]. split; [lia|]. 
        transitivity ((length l + (j - length l)) mod p)%nat; [f_equal; lia|apply Hcl; lia]. }
      assert (HBs : forall i, (i < p)%nat -> exists k, (k < length (l ++ l'))%nat /\ (k mod p = i)%nat /\
             row B' i = pt (l ++ l') k /\ f'@i = val (l ++ l') k /\
             forall j, (j < length (l ++ l'))%nat -> (j mod p = i)%nat -> er_ltb (val (l ++ l') j) (val (l ++ l') k) = false).
      { intros i Hi. destruct (se_B _ _ _ _ _ _ _ IH i Hi) as (b & Hb & Hbi & HBb & Hfb & Hbest).
        specialize (Hbb i Hi). specialize (Hff i Hi).
        change (row B' i = if er_ltb y@i f@i then row X' i else row B i) in Hbb.
        change (f'@i = if er_ltb y@i f@i then y@i else f@i) in Hff.
        rewrite app_length, HL'. destruct (er_ltb y@i f@i) eqn:Hlt.
        - exists (length l + i)%nat. rewrite Hpt, Hval by exact Hi. repeat split; auto; [lia|].
          intros j Hj Hji. destruct (Hsplit j Hj) as [Hj'|(i' & Hi' & -> & Hm)].
          + rewrite val_mix by exact Hj'. eapply no_less; [apply (Hbest j Hj' Hji)|]. rewrite <- Hfb. exact Hlt.
          + assert (i' = i) by congruence. subst i'. rewrite Hval by exact Hi. apply lt_irr.
        - exists b. rewrite pt_mix, val_mix by exact Hb. rewrite Hbb, Hff. repeat split; auto; [lia|].
          intros j Hj Hji. destruct (Hsplit j Hj) as [Hj'|(i' & Hi' & -> & Hm)].
          + rewrite val_mix by exact Hj'. auto.
          + assert (i' = i) by congruence. subst i'. rewrite Hval by exact Hi. rewrite <- Hfb. exact Hlt. }
      constructor.
      + rewrite app_length. lia.
      + intros _. rewrite app_length, HL'. rewrite <- Nat.add_mod_idemp_l, Hmod by lia. apply Nat.mod_same. lia.
      + auto.
      + intros i Hi. exists (length l + i)%nat. rewrite app_length, HL', Hpt by exact Hi.
        split; [lia|]. split; [apply Hcl, Hi|]. split; [reflexivity|]. apply Hmove, Hi.
      + exact HBs.
      + destruct Hk as [Hk Hmin]. change (k < @length er f')%nat in Hk. change (@length er f' = p) in Hf'.
        destruct (HBs k ltac:(lia)) as (m & Hm & _ & Hmb & Hmf & _).
        exists m. split; [exact Hm|]. split; [exact Hmb|]. split; [exact Hmf|].
        intros HN j Hj. rewrite <- Hmf.
        assert (HN' : Forall (@isnum EArith) f').
        { apply Forall_forall. intros z Hz. destruct (@In_nth er f' z (Fin 0) Hz) as (q & Hq & <-).
          destruct (HBs q ltac:(lia)) as (q' & Hq' & _ & _ & Hqf & _). apply er_num. rewrite Hqf. apply HN, Hq'. }
        assert (Hj' : (j mod p < p)%nat) by (apply Nat.mod_upper_bound; lia).
        destruct (HBs (j mod p)%nat Hj') as (q & Hq & _ & _ & Hqf & Hqb).
        eapply no_less'; [apply (Hqb j Hj eq_refl)|]. rewrite <- Hqf.
        specialize (Hmin EOrd HN' (j mod p)%nat).
        change ((j mod p < @length er f')%nat -> er_leb f'@k f'@(j mod p)%nat = true) in Hmin. apply Hmin. lia.
      + rewrite app_length, HL'. intros n Hn. destruct (Hsplit n) as [Hn'|(i & Hi & -> & _)]; [lia| |].
        * apply Replay_mix; [lia|]. apply (se_run _ _ _ _ _ _ _ IH). lia.
        * apply Hmove, Hi.
    - assert (HBl : forall z, In z l -> FBox rows (fst z)) by (intros z Hz; apply HBox, in_or_app; auto).
      specialize (IH HBl).
      assert (Hip : (i < p)%nat) by (subst i; apply Nat.mod_upper_bound; lia).
      pose proof (se_len _ _ _ _ _ _ _ IH) as HL. destruct (se_dims _ _ _ _ _ _ _ IH) as (LX & LV & LB & Lf).
      assert (Hnew : nth (length l) (l ++ [(x, y)]) ([], Fin 0) = (x, y)).
      { rewrite app_nth2, Nat.sub_diag by lia. reflexivity. }
      assert (Hmove : Replay A rows p deferred (l ++ [(x, y)]) (length l) /\ v = since (l ++ [(x, y)]) (length l)).
      { apply (seen_move X V B f g gf l i x v HBl IH Hip y); auto; lia. }
      assert (Hpt : pt (l ++ [(x, y)]) (length l) = x) by (unfold pt; rewrite Hnew; reflexivity).
      assert (Hval : val (l ++ [(x, y)]) (length l) = y) by (unfold val; rewrite Hnew; reflexivity).
      assert (HLn : length (l ++ [(x, y)]) = S (length l)) by (rewrite app_length; cbn; lia).
      assert (Hlast : forall j, (j < S (length l))%nat -> (j < length l)%nat \/ j = length l) by (intros; lia).
      change (if er_leb y f@i then B' = upd i x B /\ f' = upd i y f else B' = B /\ f' = f) in Hbf.
      change (if er_leb y f@i && er_leb y gf then g' = x /\ gf' = y else g' = g /\ gf' = gf) in Hg.
      constructor; rewrite ?HLn.
      + lia.
      + congruence.
      + rewrite !upd_length. destruct (er_leb y f@i); destruct Hbf as [-> ->]; rewrite ?upd_length; auto.
      + intros i' Hi'. destruct (Nat.eq_dec i' i) as [->|Hne].
        * exists (length l). rewrite Hpt. repeat split; auto; try lia.
          -- apply upd_nth_same. change (i < @length evec X)%nat. lia.
          -- etransitivity; [apply upd_nth_same; change (i < @length evec V)%nat; lia|apply Hmove].
        * destruct (se_X _ _ _ _ _ _ _ IH i' Hi') as (k & Hk & Hki & HXk & HVk).
          exists k. split.
          { split; [lia|]. assert (k + p <> length l)%nat; [|lia]. intros He. apply Hne. rewrite Hi, <- He, <- Hki.
            rewrite <- (Nat.mul_1_l p) at 2. rewrite Nat.mod_add by lia. reflexivity. }
          split; [exact Hki|]. rewrite pt_mix, since_mix by lia.
          split; (etransitivity; [apply upd_nth_other; lia|assumption]).
      + intros i' Hi'. destruct (se_B _ _ _ _ _ _ _ IH i' Hi') as (b & Hb & Hbi & HBb & Hfb & Hbest).
        destruct (Nat.eq_dec i' i) as [->|Hne].
        * destruct (er_leb y f@i) eqn:Hle; destruct Hbf as [-> ->].
          -- exists (length l). rewrite Hpt, Hval. repeat split; auto.
             ++ apply upd_nth_same. change (i < @length evec B)%nat. lia.
             ++ apply upd_nth_same. change (i < @length er f)%nat. lia.
             ++ intros j Hj Hji. destruct (Hlast j Hj) as [Hj'| ->]; [|rewrite Hval; apply lt_irr].
                rewrite val_mix by exact Hj'. eapply no_less'; [apply (Hbest j Hj' Hji)|]. rewrite <- Hfb. exact Hle.
          -- exists b. rewrite pt_mix, val_mix by exact Hb. repeat split; auto.
             intros j Hj Hji. destruct (Hlast j Hj) as [Hj'| ->].
             ++ rewrite val_mix by exact Hj'. auto.
             ++ rewrite Hval, <- Hfb. destruct (er_ltb y f@i) eqn:Hlt; [|reflexivity].
                pose proof (@ol_lt_le _ EOrd y f@i Hlt) as Hle'. cbn in Hle'. congruence.
        * exists b. rewrite pt_mix, val_mix by exact Hb.
          assert (HBo : row B' i' = row B i' /\ f'@i' = f@i').
          { destruct (er_leb y f@i); destruct Hbf as [-> ->]; split; auto; apply upd_nth_other; lia. }
          destruct HBo as [-> ->]. repeat split; auto.
          intros j Hj Hji. destruct (Hlast j Hj) as [Hj'| ->]; [|congruence]. rewrite val_mix by exact Hj'. auto.
      + destruct (se_g _ _ _ _ _ _ _ IH) as (m & Hm & Hgm & Hgfm & Hgbest).
        destruct (er_leb y f@i && er_leb y gf) eqn:Hle; destruct Hg as [-> ->].
        * exists (length l). rewrite Hpt, Hval. repeat split; auto. intros HN j Hj.
          destruct (Hlast j Hj) as [Hj'| ->]; [|rewrite Hval; apply lt_irr].
          apply andb_prop in Hle. destruct Hle as [_ Hle].
          rewrite val_mix by exact Hj'. eapply no_less'; [apply (Hgbest)|]; [|exact Hj'|rewrite <- Hgfm; exact Hle].
          intros q Hq. rewrite <- (val_mix l [(x, y)]) by exact Hq. apply HN. lia.
        * exists m. rewrite pt_mix, val_mix by exact Hm. repeat split; auto. intros HN j Hj.
          assert (HNl : forall q, (q < length l)%nat -> val l q <> NaN).
          { intros q Hq. rewrite <- (val_mix l [(x, y)]) by exact Hq. apply HN. lia. }
          destruct (Hlast j Hj) as [Hj'| ->]; [rewrite val_mix by exact Hj'; auto|].
          rewrite Hval, <- Hgfm. destruct (er_ltb y gf) eqn:Hlt; [|reflexivity].
          destruct (se_B _ _ _ _ _ _ _ IH i Hip) as (b & Hb & Hbi & HBb & Hfb & Hbest).
          assert (Hfi : er_leb y f@i = true).
          { specialize (Hgbest HNl b Hb). rewrite <- Hfb, <- Hgfm in Hgbest.
            assert (f@i <> NaN) by (rewrite Hfb; auto).
            destruct y, gf, (f@i); cbn in *; try discriminate; try congruence; rb; lra. }
          pose proof (@ol_lt_le _ EOrd y gf Hlt) as Hle'. change (er_leb y gf = true) in Hle'.
          rewrite Hfi, Hle' in Hle. discriminate.
      + intros n Hn. destruct (Hlast n) as [Hn'| ->]; [lia| |apply Hmove].
        apply Replay_mix; [lia|]. apply (se_run _ _ _ _ _ _ _ IH). lia.
    - unfold Regroup in HR. rewrite Hcomp in HR. cbn zeta in HR. destruct HR as (-> & -> & -> & ->). auto.
  Qed.
End Run.

(** ** C69 *)
Section C69.
  Context {E : Env ENum} (HE : EnvOK).

  Lemma points_of_evals (t : list event) z : In z (evals t) -> In (fst z) (points t).
  Proof.
    induction t as [|e t IH]; cbn; [tauto|]. destruct e as [x [y|n]| | | |]; cbn; auto.
    intros [<-|H]; [left; reflexivity|right; auto].
  Qed.

  Lemma pso_params A w a0 res st' : exec (pso_minimize A) w a0 = (inl res, st') ->
    isfin (psa_inertia A) /\ isfin (psa_cognitivity A) /\ isfin (psa_sociability A) /\
    (2 <= a_popsize (psa A))%Z.
  Proof.
    intros Hx.
    enough (H : wp (pso_minimize A) (fun _ _ => isfin (psa_inertia A) /\ isfin (psa_cognitivity A) /\
      isfin (psa_sociability A) /\ (2 <= a_popsize (psa A))%Z) anyx (mkSt w [] a0))
      by exact (wp_elim _ _ _ _ _ _ H Hx).
    clear Hx. unfold pso_minimize, cpso_minimize. cbn [pa pa_inertia pa_cognitivity pa_sociability pa_competitivity pa_updating].
    apply wp_bind, wp_weak, wp_check_pop. intros Hargs.
    apply wp_bind, wp_weak, wp_raise_if; [discriminate|]. intros H1.
    apply wp_bind, wp_weak, wp_raise_if; [discriminate|]. intros H2.
    apply wp_bind, wp_weak, wp_raise_if; [discriminate|]. intros H3.
    apply in_range_fin in H1, H2, H3. pose proof (pao_pop _ Hargs) as Hp.
    match goal with |- wp ?m _ _ ?s => unfold wp; destruct (m s) as [[r|e] s'] end; [|exact I].
    repeat split; auto; lia.
  Qed.

  (** Exact arithmetic, constraints = "Shrink", finite bounds, an initial swarm in the box (or none
      given), one worker: from the second generation on every evaluated point is the last feasible
      point of the segment from the particle's previous evaluation along its velocity; and that
      velocity is computed from evaluated points and values only. *)
  Theorem C69_replay (A : PSOArgs) (rows : list evec) w a0 res st' :
    a_bounds (psa A) = D2 2 rows -> a_constraints (psa A) = Some "Shrink"%string -> FiniteBox rows ->
    (forall x, a_x0 (psa A) = Some x -> nd_wf x /\ Forall (FBox rows) (nd_rows x)) ->
    a_backend (psa A) <> Some "mpi"%string -> one_worker (a_workers (psa A)) = true ->
    exec (pso_minimize A) w a0 = (inl res, st') ->
    let B := mkCPSOArgs (psa A) (psa_inertia A) (psa_cognitivity A) (psa_sociability A) None (psa_updating A) in
    let p := Z.to_nat (a_popsize (psa A)) in
    let l := evals (tr st') in
    (forall n, (p <= n < length l)%nat -> Replay B rows p (is_sync (psa_updating A) (psa A)) l n) /\
    (exists m, (m < length l)%nat /\ r_x res = pt l m /\ r_fun res = val l m /\
       ((forall j, (j < length l)%nat -> val l j <> NaN) ->
        forall j, (j < length l)%nat -> er_ltb (val l j) (val l m) = false)) /\
    length l = (Z.to_nat (r_nit res) * p)%nat.
  Proof.
    intros Hb Hc HF H0 Hmpi H1 Hx B p l.
    destruct (C57_flight_pso HE A rows w a0 res st' Hb (fun x Hx0 => proj1 (H0 x Hx0)) Hmpi Hx) as (X & V & BB & f & HFl & Hlen).
    destruct (C11_pso HE A rows w a0 _ st' Hb Hc HF (fun h => False_ind _ (Hmpi h)) (fun x Hx0 => proj2 (H0 x Hx0)) Hx)
      as (Hpts & _ & _).
    destruct (pso_params A w a0 res st' Hx) as (P1 & P2 & P3 & P4).
    rewrite H1 in HFl.
    assert (S : Seen B rows p (is_sync (psa_updating A) (psa A)) X V BB f (r_x res) (r_fun res) l).
    { apply (seen_flight HE B rows p (is_sync (psa_updating A) (psa A)) "Shrink"%string HF Hc P1 P2 P3 eq_refl ltac:(unfold p; lia) false).
      - exact HFl.
      - intros z Hz. apply Hpts, points_of_evals, Hz. }
    split; [apply (se_run _ _ _ _ _ _ _ _ _ _ _ S)|]. split; [apply (se_g _ _ _ _ _ _ _ _ _ _ _ S)|exact Hlen].
  Qed.
End C69.

(** A move that ends strictly within the bounds is a full move. *)
Theorem C69_full (rows : list evec) (x u x' : evec) : FiniteBox rows -> length u = length x -> FBox rows x ->
  Forall isfin u -> Furthest rows x u x' ->
  (forall j, (j < length rows)%nat -> er_ltb (row rows j)@0 x'@j = true /\ er_ltb x'@j (row rows j)@1 = true) ->
  x' = along 1 x u.
Proof.
  intros HF Hl Hx Hu (q & Hq & -> & HB & Hmax) Hin.
  destruct (Req_dec q 1) as [->|Hne]; [reflexivity|]. exfalso.
  assert (Hxl : length x = length rows) by apply Hx.
  assert (Hul : length u = length rows) by (etransitivity; [exact Hl|exact Hxl]).
  enough (H : forall n, (n <= length rows)%nat -> exists q', q < q' <= 1 /\
    forall j, (j < n)%nat -> forall z, q <= z <= q' -> exists lo hi c,
      row rows j = [Fin lo; Fin hi] /\ (along z x u)@j = Fin c /\ lo <= c <= hi).
  { destruct (H (length rows) (le_n _)) as (q' & Hq' & Hall).
    assert (q' <= q); [|lra]. apply Hmax; [lra|]. apply FBox_at; [exact HF|].
    split; [rewrite along_len by exact Hl; exact Hxl|]. intros j Hj. apply Hall; [exact Hj|lra]. }
  induction n as [|n IH]; intros Hn; [exists 1; split; [lra|intros; lia]|].
  destruct (IH ltac:(lia)) as (q1 & Hq1 & Hall).
  destruct (at_j rows x u HF Hx Hul Hu n Hn) as (lo & hi & a & b & K1 & K2 & K3 & K4).
  assert (Hal : forall z, (along z x u)@n = Fin (a + b * z)).
  { intros z. rewrite along_at, K2, K4; [reflexivity|exact Hl|]. elia. }
  destruct (Hin n Hn) as [G1 G2]. rewrite K1, Hal in G1, G2. cbn in G1, G2. rb.
  assert (Hone : exists q2, q < q2 <= 1 /\ forall z, q <= z <= q2 -> lo <= a + b * z <= hi).
  { destruct (total_order_T b 0) as [[Hb| ->]|Hb].
    - assert (Hr : b * ((lo - a) / b) = lo - a) by (field; lra). set (r := (lo - a) / b) in *.
      assert (Hqr : q < r). { apply Rmult_lt_reg_l with (- b); lra. }
      exists (Rmin 1 r). pose proof (Rmin_l 1 r). pose proof (Rmin_r 1 r).
      split; [split; [apply Rmin_glb_lt; lra|lra]|]. intros z Hz.
      assert (- b * z <= - b * r) by (apply Rmult_le_compat_l; lra).
      assert (- b * q <= - b * z) by (apply Rmult_le_compat_l; lra). lra.
    - exists 1. split; [lra|]. intros z Hz. lra.
    - assert (Hr : b * ((hi - a) / b) = hi - a) by (field; lra). set (r := (hi - a) / b) in *.
      assert (Hqr : q < r). { apply Rmult_lt_reg_l with b; lra. }
      exists (Rmin 1 r). pose proof (Rmin_l 1 r). pose proof (Rmin_r 1 r).
      split; [split; [apply Rmin_glb_lt; lra|lra]|]. intros z Hz.
      assert (b * z <= b * r) by (apply Rmult_le_compat_l; lra).
      assert (b * q <= b * z) by (apply Rmult_le_compat_l; lra). lra. }
  destruct Hone as (q2 & Hq2 & Hall2).
  exists (Rmin q1 q2). pose proof (Rmin_l q1 q2). pose proof (Rmin_r q1 q2).
  split; [split; [apply Rmin_glb_lt; lra|lra]|]. intros j Hj z Hz.
  destruct (Nat.eq_dec j n) as [->|]; [|apply Hall; [lia|lra]].
  exists lo, hi, (a + b * z). split; [exact K1|]. split; [apply Hal|]. apply Hall2. lra.
Qed.

(** A particle on a bound whose velocity points out of the box does not move at all. *)
Theorem C69_stuck (rows : list evec) (x u x' : evec) j : FiniteBox rows -> length u = length x -> FBox rows x ->
  Forall isfin u -> Furthest rows x u x' -> (j < length rows)%nat ->
  (x@j = (row rows j)@0 /\ er_ltb u@j (Fin 0) = true) \/ (x@j = (row rows j)@1 /\ er_ltb (Fin 0) u@j = true) ->
  x' = x.
Proof.
  intros HF Hl Hx Hu (q & Hq & -> & HB & _) Hj Hout.
  assert (Hxl : length x = length rows) by apply Hx.
  assert (Hul : length u = length rows) by (etransitivity; [exact Hl|exact Hxl]).
  destruct (at_j rows x u HF Hx Hul Hu j Hj) as (lo & hi & a & b & K1 & K2 & K3 & K4).
  destruct (proj1 (FBox_at _ _ HF) HB) as [_ Hat]. destruct (Hat j Hj) as (lo' & hi' & c & M1 & M2 & M3).
  rewrite K1 in M1. injection M1 as <- <-.
  rewrite along_at, K2, K4 in M2; [|exact Hl|elia]. cbn in M2. injection M2 as <-.
  rewrite K1, K2, K4 in Hout. cbn in Hout. rb.
  assert (q = 0).
  { destruct Hout as [[Ha Hb]|[Ha Hb]]; injection Ha as ->.
    - assert (0 <= q * b) by lra. destruct (Req_dec q 0); [assumption|]. 
      assert (0 < q * - b) by (apply Rmult_lt_0_compat; lra). lra.
    - assert (q * b <= 0) by lra. destruct (Req_dec q 0); [assumption|].
      assert (0 < q * b) by (apply Rmult_lt_0_compat; lra). lra. }
  subst q. apply evec_ext; [apply along_len, Hl|]. intros i Hi. rewrite along_len in Hi by exact Hl.
  rewrite along_at by auto.
  assert (Hi' : (i < length rows)%nat) by elia.
  destruct (at_j rows x u HF Hx Hul Hu i Hi') as (? & ? & ai & bi & _ & -> & _ & ->). cbn. f_equal. lra.
Qed.
