(** C31: the truncated natural-gradient step of VD-CMA in exact arithmetic. *)
From Coq Require Import Reals Lra Psatz.
From Verif Require Import Base Num NumR NumE Env Common DE Mat CMAES VDCMA Weights FeasPso.
Open Scope R_scope.

(** ** Real algebra of vdcma/_vdcma.py:318-329.  [q] = |v|^2, [m] = max(vn^2). *)
Section Alpha.
  Context (q m : R).
  Context (Hq : 0 < q) (Hm : 0 < m <= 1).
  Let g := 1 / sqrt (1 + q).
  Lemma gamma_bounds : 0 < g < 1.
  Proof.
    unfold g. assert (Hs : 1 < sqrt (1 + q)). { rewrite <- sqrt_1 at 1. apply sqrt_lt_1; lra. }
    split; [apply Rdiv_lt_0_compat; lra|]. apply Rdiv_bound_lt; lra.
  Qed.
  Let rad := q * q + (1 + q) / m * (2 - g).
  Let c := (2 - g) / m.
  Lemma c_pos : 0 < c.
  Proof. pose proof gamma_bounds. apply Rdiv_lt_0_compat; lra. Qed.
  Lemma cm_eq : c * m = 2 - g.
  Proof. unfold c. field. lra. Qed.
  Lemma rad_eq : rad = q * q + (1 + q) * c.
  Proof. unfold rad, c. field. lra. Qed.
  Lemma rad_pos : 0 < rad.
  Proof. rewrite rad_eq. pose proof c_pos. nra. Qed.
  Let a0 := sqrt rad / (2 + q).
  Lemma a0_sq : a0 * a0 * ((2 + q) * (2 + q)) = rad.
  Proof.
    unfold a0. pose proof rad_pos. replace (sqrt rad / (2 + q) * (sqrt rad / (2 + q)) * ((2 + q) * (2 + q))) with (sqrt rad * sqrt rad) by (field; lra).
    apply sqrt_sqrt. lra.
  Qed.
  Lemma a0_pos : 0 < a0.
  Proof. unfold a0. apply Rdiv_lt_0_compat; [apply sqrt_lt_R0, rad_pos|lra]. Qed.

  (** alpha < 1 *)
  Let beta := (4 - c) / ((1 + 2 / q) * (1 + 2 / q)).
  Lemma beta_eq : beta * ((2 + q) * (2 + q)) = (4 - c) * (q * q).
  Proof.
    unfold beta. set (k := c). clearbody k. clear c rad a0 beta. field. split; lra.
  Qed.
  Lemma small_coef : 4 * (a0 * a0) - beta = c.
  Proof.
    pose proof a0_sq as H1. pose proof beta_eq as H2. rewrite rad_eq in H1.
    assert (H3 : (4 * (a0 * a0) - beta) * ((2 + q) * (2 + q)) = c * ((2 + q) * (2 + q))) by nra.
    apply Rmult_eq_reg_r in H3; [exact H3|]. nra.
  Qed.
  Lemma small_den (s : R) : 0 <= s <= m / g -> 0 < 1 + (2 * (a0 * a0) - beta) * s.
  Proof.
    intros Hs. pose proof gamma_bounds as Hg. pose proof small_coef as HC. pose proof a0_sq as HA. rewrite rad_eq in HA.
    set (b := 2 * (a0 * a0) - beta) in *. assert (Hb : b = c - 2 * (a0 * a0)) by (unfold b; lra).
    pose proof cm_eq as Hcm. clearbody b. clear HC.
    destruct (Rle_dec 0 b) as [H0|H0]; [nra|].
    assert (Hmain : 0 < g + b * m).
    { assert (HK : 0 < (2 + q) * (2 + q)) by nra.
      assert (HX : (g + b * m) * ((2 + q) * (2 + q)) = g * ((2 + q) * (2 + q)) + (2 - g) * ((2 + q) * (2 + q)) - 2 * (q * q * m + (1 + q) * (2 - g))).
      { replace (b * m) with (c * m - 2 * (a0 * a0) * m) by (rewrite Hb; ring).
        rewrite Hcm. replace (q * q * m + (1 + q) * (2 - g)) with ((a0 * a0 * ((2 + q) * (2 + q))) * m); [ring|].
        rewrite HA, <- Hcm. ring. }
      assert (HY : 0 < g * ((2 + q) * (2 + q)) + (2 - g) * ((2 + q) * (2 + q)) - 2 * (q * q * m + (1 + q) * (2 - g))) by nra.
      rewrite <- HX in HY. apply (Rmult_lt_reg_r ((2 + q) * (2 + q))); lra. }
    assert (Hs2 : b * (m / g) <= b * s) by (apply Rmult_le_compat_neg_l; lra).
    assert (Hs3 : 1 + b * (m / g) = (g + b * m) / g) by (field; lra).
    assert (0 < (g + b * m) / g) by (apply Rdiv_lt_0_compat; lra). lra.
  Qed.

  (** alpha >= 1 *)
  Lemma big_coef : 1 <= a0 -> 4 <= c.
  Proof.
    intros H. assert (1 <= a0 * a0) by nra. pose proof a0_sq as HA. rewrite rad_eq in HA.
    assert ((2 + q) * (2 + q) <= q * q + (1 + q) * c) by nra. nra.
  Qed.
End Alpha.

(** ** Lists of finite numbers *)
Notation fin := (map Fin).
Lemma fin_isfin l : Forall isfin (fin l).
Proof. induction l; constructor; [exact I|assumption]. Qed.
Lemma isfin_fin (l : list er) : Forall isfin l -> exists r, l = fin r.
Proof.
  induction 1 as [|x l Hx Hl (r & ->)]; [exists []; reflexivity|]. destruct x as [a| | |]; try destruct Hx.
  exists (a :: r). reflexivity.
Qed.
Lemma fin_inj a b : fin a = fin b -> a = b.
Proof. revert b; induction a as [|x a IH]; intros [|y b]; cbn; try congruence. intros H; injection H as -> H. f_equal. auto. Qed.
Lemma map2_fin (f : er -> er -> er) (g : R -> R -> R) a b : (forall x y, f (Fin x) (Fin y) = Fin (g x y)) ->
  map2 f (fin a) (fin b) = fin (map2 g a b).
Proof. intros H. revert b; induction a as [|x a IH]; intros [|y b]; cbn; try reflexivity. rewrite H, IH. reflexivity. Qed.
Lemma map_fin (f : er -> er) (g : R -> R) a : (forall x, In x a -> f (Fin x) = Fin (g x)) -> map f (fin a) = fin (map g a).
Proof. intros H. rewrite !map_map. apply map_ext_in. exact H. Qed.
Lemma vsum_fin a : @vsum EArith (fin a) = Fin (rsum a).
Proof.
  unfold vsum. change (@n0 EArith) with (Fin 0).
  assert (H : forall k, fold_left er_add (fin a) (Fin k) = Fin (k + rsum a)).
  { induction a as [|x a IH]; intros k; cbn; [f_equal; lra|]. rewrite IH. f_equal. lra. }
  etransitivity; [apply H|]. f_equal. lra.
Qed.
Definition rdot (a b : list R) : R := rsum (map2 Rmult a b).
Lemma vdot_fin a b : @vdot EArith (fin a) (fin b) = Fin (rdot a b).
Proof. unfold vdot, vmul. rewrite (map2_fin _ Rmult) by reflexivity. apply vsum_fin. Qed.
Lemma div_fin a b : b <> 0 -> er_div (Fin a) (Fin b) = Fin (a / b).
Proof. intros H. cbn. destruct (Req_EM_T b 0); [contradiction|reflexivity]. Qed.
Lemma sqrt_fin a : 0 <= a -> er_sqrt (Fin a) = Fin (sqrt a).
Proof. intros H. cbn. destruct (Rlt_dec a 0); [lra|reflexivity]. Qed.

Lemma vmax_fin (l : list R) : l <> [] -> exists m, @vmax ENum (fin l) = Fin m /\ In m l /\ forall r, In r l -> r <= m.
Proof.
  destruct l as [|a l]; [congruence|]. intros _. unfold vmax. cbn [map].
  revert a. induction l as [|b l IH]; intros a; cbn [map fold_left].
  - exists a. split; [reflexivity|]. split; [left; reflexivity|]. intros r [->|[]]; lra.
  - assert (E : @np_max2 ENum (Fin a) (Fin b) = Fin (Rmax a b)).
    { unfold np_max2, nisnan. cbn. replace (Reqb a a) with true by (symmetry; apply Reqb_true; reflexivity). cbn.
      unfold Rmax. destruct (Rleb b a) eqn:Eb; rb; destruct (Rle_dec a b); f_equal; lra. }
    rewrite E. destruct (IH (Rmax a b)) as (m & -> & Hin & Hm). exists m. split; [reflexivity|].
    assert (H0 : Rmax a b <= m) by (apply Hm; left; reflexivity). pose proof (Rmax_l a b). pose proof (Rmax_r a b). split.
    + destruct Hin as [<-|Hin]; [|right; right; exact Hin]. unfold Rmax. destruct (Rle_dec a b); [right; left|left]; reflexivity.
    + intros r [<-|[<-|Hr]]; [lra|lra|apply Hm; right; exact Hr].
Qed.

Lemma rsum_le_all (l : list R) m : Forall (fun x => x <= m) l -> rsum l <= INR (length l) * m.
Proof. induction 1 as [|x l Hx Hl IH]; [cbn; lra|]. cbn [rsum length]. rewrite S_INR. lra. Qed.
Lemma rsum_in_le (l : list R) x : Forall (fun x => 0 <= x) l -> In x l -> x <= rsum l.
Proof.
  induction 1 as [|y l Hy Hl IH]; [intros []|]. cbn. pose proof (rsum_nonneg l Hl).
  intros [<-|Hx]; [lra|]. specialize (IH Hx). lra.
Qed.
Lemma rdot_weighted (w b : list R) K : length w = length b -> Forall (fun x => 0 <= x) w -> Forall (fun x => 0 <= x <= K) b ->
  0 <= rdot w b <= rsum w * K.
Proof.
  intros Hl Hw Hb. revert b Hl Hb. unfold rdot. induction Hw as [|x w Hx Hw IH]; intros [|y b] Hl Hb; try discriminate; cbn.
  - lra.
  - inversion Hb as [|? ? Hy Hb']; subst. assert (0 <= rsum (map2 Rmult w b) <= rsum w * K) by (apply IH; [cbn in Hl; lia|exact Hb']). nra.
Qed.
Lemma rdot_pos_nonneg (w b : list R) : Forall (fun x => 0 <= x) w -> Forall (fun x => 0 <= x) b -> 0 <= rdot w b.
Proof.
  intros Hw Hb. revert b Hb. unfold rdot. induction Hw as [|x w Hx Hw IH]; intros [|y b] Hb; cbn; try lra.
  inversion Hb as [|? ? Hy Hb']; subst. specialize (IH b Hb'). nra.
Qed.

(** ** The quantities of vdcma/_vdcma.py:318-329 are finite, and their denominators are positive *)
Lemma vd_alpha_fin (nn : list R) (q : R) : 0 < q -> Forall (fun x => 0 <= x) nn -> rsum nn = 1 ->
  exists al av b iv,
    @vd_alpha EArith (@vmax ENum) (fin nn) (Fin q) = (Fin al, fin av, Fin b, fin iv) /\
    length av = length nn /\ length iv = length nn /\ Forall (fun x => 0 < x) av /\ 0 < 1 + b * rdot nn iv.
Proof.
  intros Hq Hn Hs.
  assert (Hne : nn <> []) by (intros ->; cbn in Hs; lra).
  destruct (vmax_fin nn Hne) as (m & Hmx & Hin & Hmax).
  assert (Hm1 : m <= 1) by (rewrite <- Hs; apply rsum_in_le; assumption).
  assert (Hm0 : 0 < m).
  { destruct (Rlt_dec 0 m) as [|Hc]; [assumption|]. exfalso.
    assert (rsum nn <= INR (length nn) * m) by (apply rsum_le_all, Forall_forall; exact Hmax).
    pose proof (pos_INR (length nn)). nra. }
  pose proof (conj Hm0 Hm1) as Hm. pose proof (gamma_bounds q Hq) as Hg. pose proof (rad_pos q m Hq Hm) as Hr.
  set (g := 1 / sqrt (1 + q)) in *.
  assert (HG : er_div (Fin 1) (er_sqrt (er_add (Fin 1) (Fin q))) = Fin g).
  { cbn [er_add]. rewrite sqrt_fin by lra. apply div_fin. apply Rgt_not_eq, sqrt_lt_R0. lra. }
  set (rad := q * q + (1 + q) / m * (2 - g)) in *.
  set (a0 := sqrt rad / (2 + q)).
  set (bt := (4 - (2 - g) / m) / ((1 + 2 / q) * (1 + 2 / q))).
  assert (Hbody : forall al b, (forall x, In x nn -> 0 < 2 - (b + 2 * (al * al)) * x) ->
     (forall iv, length iv = length nn -> (forall x y, In (x, y) (combine nn iv) -> y = x / (2 - (b + 2 * (al * al)) * x)) -> 0 < 1 + b * rdot nn iv) ->
     exists al' av b' iv, (Fin al, map (fun x => er_sub (Fin 2) (er_mul (er_add (Fin b) (er_mul (Fin 2) (er_mul (Fin al) (Fin al)))) x)) (fin nn), Fin b,
        map2 er_div (fin nn) (map (fun x => er_sub (Fin 2) (er_mul (er_add (Fin b) (er_mul (Fin 2) (er_mul (Fin al) (Fin al)))) x)) (fin nn)))
        = (Fin al', fin av, Fin b', fin iv) /\
       length av = length nn /\ length iv = length nn /\ Forall (fun x => 0 < x) av /\ 0 < 1 + b' * rdot nn iv).
  { intros al b Hav Hden.
    set (f := fun x => 2 - (b + 2 * (al * al)) * x).
    assert (E1 : map (fun x => er_sub (Fin 2) (er_mul (er_add (Fin b) (er_mul (Fin 2) (er_mul (Fin al) (Fin al)))) x)) (fin nn) = fin (map f nn))
      by (apply map_fin; intros; reflexivity).
    rewrite E1.
    assert (E2 : map2 er_div (fin nn) (fin (map f nn)) = fin (map2 Rdiv nn (map f nn))).
    { clear - Hav. induction nn as [|x l IH]; [reflexivity|]. cbn [map map2]. rewrite IH by (intros; apply Hav; right; assumption).
      rewrite div_fin; [reflexivity|]. apply Rgt_not_eq. apply (Hav x). left; reflexivity. }
    rewrite E2. exists al, (map f nn), b, (map2 Rdiv nn (map f nn)). split; [reflexivity|].
    assert (L : length (map2 Rdiv nn (map f nn)) = length nn) by (rewrite map2_length, map_length; lia).
    split; [apply map_length|]. split; [exact L|]. split.
    - apply Forall_forall. intros y Hy. apply in_map_iff in Hy. destruct Hy as (x & <- & Hx). apply Hav, Hx.
    - apply Hden; [exact L|]. clear. induction nn as [|x l IH]; cbn; [tauto|]. intros u v [H|H]; [injection H as <- <-; reflexivity|auto]. }
  unfold vd_alpha. rewrite Hmx.
  change (@n1 EArith) with (Fin 1). change (@n0 EArith) with (Fin 0).
  cbn [nadd nsub nmul ndiv nsqrt nltb EArith]. unfold nsq, nZ. cbn [nmul nlit EArith].
  change (Rlit 2 0) with 2. change (Rlit 4 0) with 4.
  rewrite HG. cbn [er_add er_sub er_mul].
  rewrite (div_fin (1 + q) m) by lra. cbn [er_add er_sub er_mul]. fold rad. rewrite (sqrt_fin rad) by lra.
  rewrite div_fin by lra. fold a0.
  rewrite (div_fin (2 - g) m) by lra. rewrite (div_fin 2 q) by lra. cbn [er_add er_sub er_mul].
  rewrite (div_fin (4 - (2 - g) / m)) by (assert (0 < 2 / q) by (apply Rdiv_lt_0_compat; lra); nra).
  fold bt. cbn [er_ltb].
  assert (Hiv0 : forall al b iv, (forall x, In x nn -> 0 < 2 - (b + 2 * (al * al)) * x) -> length iv = length nn ->
     (forall x y, In (x, y) (combine nn iv) -> y = x / (2 - (b + 2 * (al * al)) * x)) -> Forall (fun y => exists x, In x nn /\ y = x / (2 - (b + 2 * (al * al)) * x)) iv).
  { intros al b iv _ L Hy. apply Forall_forall. intros y Hyin. apply In_nth with (d := 0) in Hyin. destruct Hyin as (i & Hi & <-).
    exists (nth i nn 0). split; [apply nth_In; lia|]. apply Hy. rewrite <- combine_nth by lia. apply nth_In.
    rewrite combine_length. lia. }
  destruct (Rltb a0 1) eqn:Ha; rb.
  - (* alpha < 1 *)
    pose proof (small_coef q m Hq Hm) as HC. fold g in HC. fold rad in HC. fold a0 in HC. fold bt in HC.
    cbn [er_mul er_sub er_add].
    assert (HAV : forall x, In x nn -> g <= 2 - (2 * (a0 * a0) - bt + 2 * (a0 * a0)) * x).
    { intros x Hx. replace (2 * (a0 * a0) - bt + 2 * (a0 * a0)) with ((2 - g) / m) by lra.
      assert ((2 - g) / m * x <= (2 - g) / m * m). { apply Rmult_le_compat_l; [apply Rlt_le, Rdiv_lt_0_compat; lra|apply Hmax, Hx]. }
      replace ((2 - g) / m * m) with (2 - g) in H by (field; lra). lra. }
    apply (Hbody a0 (2 * (a0 * a0) - bt)).
    + intros x Hx. specialize (HAV x Hx). lra.
    + intros iv L Hy. apply (small_den q m Hq Hm). fold g.
      replace (m / g) with (rsum nn * (m / g)) by (rewrite Hs; ring).
      apply rdot_weighted; [symmetry; exact L|exact Hn|].
      assert (HF : forall x, In x nn -> 0 < 2 - (2 * (a0 * a0) - bt + 2 * (a0 * a0)) * x) by (intros x Hx; specialize (HAV x Hx); lra).
      eapply Forall_impl; [|exact (Hiv0 a0 (2 * (a0 * a0) - bt) iv HF L Hy)]. cbv beta. intros y (x & Hx & ->).
      specialize (HAV x Hx). set (den := 2 - _) in *. rewrite Forall_forall in Hn. pose proof (Hn x Hx) as Hx0. cbv beta in Hx0. pose proof (Hmax x Hx).
      split; [apply Rmult_le_pos; [exact Hx0|apply Rlt_le, Rinv_0_lt_compat; lra]|].
      unfold Rdiv. apply Rmult_le_compat; [exact Hx0|apply Rlt_le, Rinv_0_lt_compat; lra|exact H|apply Rinv_le_contravar; lra].
  - (* alpha >= 1 *)
    assert (Ha' : 1 <= a0) by lra.
    pose proof (big_coef q m Hq Hm Ha') as HC. fold g in HC.
    assert (Hmg : m <= (2 - g) / 4).
    { assert ((2 - g) / m * m = 2 - g) by (field; lra). nra. }
    cbn [er_mul er_sub er_add].
    apply (Hbody 1 (2 * (1 * 1) - 0)).
    + intros x Hx. pose proof (Hmax x Hx). nra.
    + intros iv L Hy.
      assert (HF : forall x, In x nn -> 0 < 2 - (2 * (1 * 1) - 0 + 2 * (1 * 1)) * x) by (intros x Hx; pose proof (Hmax x Hx); nra).
      assert (0 <= rdot nn iv); [|lra]. apply rdot_pos_nonneg; [exact Hn|].
      eapply Forall_impl; [|exact (Hiv0 1 (2 * (1 * 1) - 0) iv HF L Hy)]. cbv beta. intros y (x & Hx & ->).
      rewrite Forall_forall in Hn. apply Rmult_le_pos; [apply Hn, Hx|]. apply Rlt_le, Rinv_0_lt_compat, HF, Hx.
Qed.

(** ** The natural gradient is finite *)
Notation fins l := (Forall isfin l).
Lemma fins_map2 (f : er -> er -> er) a b : (forall x y, isfin x -> isfin y -> isfin (f x y)) -> fins a -> fins b -> fins (map2 f a b).
Proof.
  intros H Ha Hb. revert b Hb. induction Ha as [|x a Hx Ha IH]; intros b Hb; [constructor|].
  destruct Hb as [|y b Hy Hb]; [constructor|]. cbn. constructor; auto.
Qed.
Lemma map3_Forall {A B C D} (P : A -> Prop) (Q : B -> Prop) (R : C -> Prop) (S : D -> Prop) (f : A -> B -> C -> D) a b c :
  (forall x y z, P x -> Q y -> R z -> S (f x y z)) -> Forall P a -> Forall Q b -> Forall R c -> Forall S (map3 f a b c).
Proof.
  intros H Ha Hb Hc. revert b c Hb Hc. induction Ha as [|x a Hx Ha IH]; intros b c Hb Hc; [constructor|].
  destruct Hb as [|y b Hy Hb]; [constructor|]. destruct Hc as [|z c Hz Hc]; [constructor|]. cbn. constructor; auto.
Qed.
Lemma fins_map (f : er -> er) a : (forall x, isfin x -> isfin (f x)) -> fins a -> fins (map f a).
Proof. intros H Ha. induction Ha; cbn; constructor; auto. Qed.
Lemma fins_vdot a b : fins a -> fins b -> isfin (@vdot EArith a b).
Proof. intros Ha Hb. destruct (isfin_fin _ Ha) as (u & ->), (isfin_fin _ Hb) as (v & ->). rewrite vdot_fin. exact I. Qed.
Lemma fins_vsum a : fins a -> isfin (@vsum EArith a).
Proof. intros Ha. destruct (isfin_fin _ Ha) as (u & ->). rewrite vsum_fin. exact I. Qed.
Definition posf (x : er) : Prop := match x with Fin r => 0 < r | _ => False end.
Lemma posf_fin x : posf x -> isfin x.
Proof. destruct x; cbn; tauto. Qed.
Lemma fin_div x y : isfin x -> posf y -> isfin (er_div x y).
Proof. destruct x as [a| | |], y as [b| | |]; cbn; try tauto. intros _ H. destruct (Req_EM_T b 0); [lra|exact I]. Qed.
Lemma fins_vdiv a b : fins a -> Forall posf b -> fins (@vdiv EArith a b).
Proof.
  intros Ha Hb. unfold vdiv. revert b Hb. induction Ha as [|x a Hx Ha IH]; intros b Hb; [constructor|].
  destruct Hb as [|y b Hy Hb]; [constructor|]. cbn. constructor; [apply fin_div; assumption|auto].
Qed.
Lemma fins_nth l j : fins l -> isfin (nth j l (@n0 EArith)).
Proof. intros H. revert j. induction H as [|x l Hx Hl IH]; intros [|j]; try exact I; cbn; auto. Qed.
Lemma fins_vmat d w m : fins w -> Forall (fun r => fins r) m -> fins (@vmat EArith d w m).
Proof.
  intros Hw Hm. apply Forall_forall. intros x Hx. apply in_map_iff in Hx. destruct Hx as (j & <- & _).
  apply fins_vdot; [exact Hw|]. apply Forall_forall. intros y Hy. apply in_map_iff in Hy. destruct Hy as (r & <- & Hr).
  rewrite Forall_forall in Hm. apply fins_nth, Hm, Hr.
Qed.
Lemma fins_combine a b : fins a -> fins b -> Forall (fun p => isfin (fst p) /\ isfin (snd p)) (combine a b).
Proof.
  intros Ha Hb. revert b Hb. induction Ha as [|x a Hx Ha IH]; intros b Hb; [constructor|].
  destruct Hb as [|y b Hy Hb]; [constructor|]. cbn. constructor; auto.
Qed.
Lemma fins_repeat0 d : fins (repeat (@n0 EArith) d).
Proof. induction d; constructor; [exact I|assumption]. Qed.
Lemma fins_scale k l : isfin k -> fins l -> fins (@vscale EArith k l).
Proof. intros Hk Hl. apply fins_map; [|exact Hl]. intros x Hx. apply fin_mul; assumption. Qed.
Lemma fins_add a b : fins a -> fins b -> fins (@vadd EArith a b).
Proof. apply fins_map2. exact fin_add. Qed.
Lemma fins_sub a b : fins a -> fins b -> fins (@vsub EArith a b).
Proof. apply fins_map2. exact fin_sub. Qed.
Lemma fins_mul a b : fins a -> fins b -> fins (@vmul EArith a b).
Proof. apply fins_map2. exact fin_mul. Qed.
Lemma fins_posf l : Forall posf l -> fins l.
Proof. apply Forall_impl, posf_fin. Qed.
Lemma fin_posf l : Forall (fun x => 0 < x) l -> Forall posf (fin l).
Proof. induction 1; constructor; assumption. Qed.

Ltac ff := cbn [nadd nsub nmul ndiv EArith];
  repeat first [ assumption | exact I | apply fin_add | apply fin_sub | apply fin_mul | apply fin_div | apply fins_vdot ].

Lemma pq_one_fin vn q y : 0 < q -> fins vn -> fins y ->
  fins (fst (@pq_one EArith vn (Fin q) y)) /\ fins (snd (@pq_one EArith vn (Fin q) y)).
Proof.
  intros Hq Hv Hy. unfold pq_one. cbn [fst snd]. pose proof (fins_vdot y vn Hy Hv).
  assert (posf (@nadd EArith (@n1 EArith) (Fin q))) by (cbn; lra).
  split; apply fins_map2; try assumption; intros a b Ha Hb; unfold nsq; ff.
Qed.
Lemma pq_row_fin vn q y : 0 < q -> fins vn -> fins y ->
  fins (fst (@pq_row EArith vn (Fin q) y)) /\ fins (snd (@pq_row EArith vn (Fin q) y)).
Proof.
  intros Hq Hv Hy. unfold pq_row. cbn [fst snd]. pose proof (fins_vdot y vn Hy Hv).
  assert (posf (@nadd EArith (@n1 EArith) (Fin q))) by (cbn; lra).
  split; apply fins_map2; try assumption; intros a b Ha Hb; unfold nsq; ff.
Qed.
Lemma pq_mu_fin d vn q ys w : 0 < q -> fins vn -> Forall (fun y => fins y) ys -> fins w ->
  fins (fst (@pq_mu EArith d vn (Fin q) ys w)) /\ fins (snd (@pq_mu EArith d vn (Fin q) ys w)).
Proof.
  intros Hq Hv Hy Hw. unfold pq_mu. cbn [fst snd]. rewrite Forall_forall in Hy.
  split; apply fins_vmat; try assumption; apply Forall_forall; intros r Hr; rewrite map_map in Hr;
    apply in_map_iff in Hr; destruct Hr as (y & <- & Hin); apply pq_row_fin; auto.
Qed.

Lemma ngv_ngd_fin dv vn nn nv q al av b iv pv qv : 0 < q -> 0 < nv -> fins vn -> Forall (fun x => 0 < x) av ->
  0 < 1 + b * rdot nn iv -> fins pv -> fins qv ->
  let r := @ngv_ngd EArith (fin dv) vn (fin nn) (Fin nv) (Fin q) (Fin al) (fin av) (Fin b) (fin iv) pv qv in
  fins (fst r) /\ fins (snd r).
Proof.
  intros Hq Hnv Hv Hav Hden Hp Hqv. unfold ngv_ngd. cbn [fst snd].
  assert (HD : posf (@nadd EArith (@n1 EArith) (Fin q))) by (cbn; lra).
  assert (HV : posf (Fin nv)) by exact Hnv.
  pose proof (fins_vdot vn qv Hv Hqv) as Hvq. set (vq := @vdot EArith vn qv) in *. clearbody vq.
  match goal with |- context [map3 ?f pv ?y ?z] => set (rv := map3 f pv y z) end.
  assert (Hr : fins rv).
  { unfold rv. eapply (map3_Forall isfin (fun p => isfin (fst p) /\ isfin (snd p)) isfin);
      [|exact Hp|apply fins_combine; assumption|apply fin_isfin].
    intros x [y z] u Hx [Hy Hz] Hu. cbn [fst snd] in *. ff. }
  clearbody rv. pose proof (fins_vdot rv (fin iv) Hr (fin_isfin iv)) as Hri. set (ri := @vdot EArith rv (fin iv)) in *. clearbody ri.
  rewrite (vdot_fin nn iv).
  match goal with |- context [map3 ?f rv ?y ?z] => match f with context [nmul ?x _] => set (k := x) end end.
  assert (Hk : isfin k). { unfold k. cbn [nadd nmul ndiv EArith]. apply fin_div; [apply fin_mul; [exact I|exact Hri]|]. cbn. exact Hden. }
  clearbody k. match goal with |- context [map3 ?f rv ?y ?z] => set (sv := map3 f rv y z) end.
  assert (Hs : fins sv).
  { unfold sv. eapply (map3_Forall isfin posf isfin); [|exact Hr|apply fin_posf, Hav|apply fin_isfin].
    intros x y z Hx Hy Hz. ff. }
  clearbody sv. pose proof (fins_vdot sv (fin nn) Hs (fin_isfin nn)) as Hsv. set (s := @vdot EArith sv (fin nn)) in *. clearbody s.
  split; [|apply fins_mul; [apply fin_isfin|exact Hs]].
  eapply (map3_Forall isfin isfin isfin); [|exact Hqv|exact Hv|exact Hs]. intros x y z Hx Hy Hz. ff.
Qed.
Lemma ngv_ngd_length dv vn nn nv q al av b iv pv qv d : length dv = d -> length vn = d -> length nn = d ->
  length av = d -> length iv = d -> length pv = d -> length qv = d ->
  let r := @ngv_ngd EArith (fin dv) vn (fin nn) (Fin nv) (Fin q) (Fin al) (fin av) (Fin b) (fin iv) pv qv in
  length (fst r) = d /\ length (snd r) = d.
Proof.
  intros. subst r. unfold ngv_ngd, vmul. cbn [fst snd].
  repeat (rewrite ?map3_length, ?map2_length, ?combine_length, ?map_length). elia.
Qed.

(** ** The truncation factor *)
Definition okmin (x : er) : Prop := match x with Fin r => 0 <= r | PInf => True | _ => False end.
Lemma vmin_ok (l : list er) : l <> [] -> Forall okmin l ->
  okmin (@vmin ENum l) /\ (forall r, In (Fin r) l -> exists m, @vmin ENum l = Fin m /\ m <= r) .
Proof.
  destruct l as [|a l]; [congruence|]. intros _ H. unfold vmin.
  pose proof (Forall_inv H) as Ha. pose proof (Forall_inv_tail H) as Hl. clear H.
  revert a Ha. induction l as [|b l IH]; intros a Ha; cbn [fold_left].
  - split; [exact Ha|]. intros r [->|[]]. exists r. split; [reflexivity|lra].
  - pose proof (Forall_inv Hl) as Hb. pose proof (Forall_inv_tail Hl) as Hl'.
    assert (E : exists c, @np_min2 ENum a b = c /\ okmin c /\ (forall r, a = Fin r -> exists s, c = Fin s /\ s <= r) /\
                          (forall r, b = Fin r -> exists s, c = Fin s /\ s <= r)).
    { exists (@np_min2 ENum a b). split; [reflexivity|]. unfold np_min2, nisnan.
      destruct a as [x| | |], b as [y| | |]; cbn in Ha, Hb; try tauto; cbn.
      - replace (Reqb x x) with true by (symmetry; apply Reqb_true; reflexivity). cbn.
        destruct (Rleb x y) eqn:E; rb; (split; [assumption|]); split; intros r Hr; injection Hr as <-; eexists; (split; [reflexivity|]); lra.
      - replace (Reqb x x) with true by (symmetry; apply Reqb_true; reflexivity). cbn.
        split; [assumption|]. split; intros r Hr; [injection Hr as <-; eexists; split; [reflexivity|lra]|discriminate].
      - split; [assumption|]. split; intros r Hr; [discriminate|injection Hr as <-; eexists; split; [reflexivity|lra]].
      - split; [exact I|]. split; intros r Hr; discriminate. }
    destruct E as (c & -> & Hc & Hca & Hcb). destruct (IH Hl' c Hc) as (Hm & Hr).
    split; [exact Hm|]. intros r [->|[->|Hin]].
    + destruct (Hca r eq_refl) as (s & -> & Hs). destruct (Hr s (or_introl eq_refl)) as (m & E & Hms). exists m. split; [exact E|lra].
    + destruct (Hcb r eq_refl) as (s & -> & Hs). destruct (Hr s (or_introl eq_refl)) as (m & E & Hms). exists m. split; [exact E|lra].
    + apply Hr. right. exact Hin.
Qed.

Lemma rdot_self_nonneg l : 0 <= rdot l l.
Proof. unfold rdot. induction l as [|x l IH]; cbn; [lra|]. nra. Qed.

(** 0 <= u <= 1, and the step is at most 70 percent of each scaling and of the length of v *)
Lemma upfactor_fin (nv : R) (dv gv gd : list R) : 0 < nv -> Forall (fun x => 0 < x) dv -> dv <> [] -> length gd = length dv ->
  exists u, @vd_upfactor EArith (@vmin ENum) (Fin nv) (fin dv) (fin gv) (fin gd) = Fin u /\ 0 <= u <= 1 /\
    u * u * rdot gv gv <= 49 / 100 * (nv * nv) /\
    Forall2 (fun d g => Rabs (u * g) <= 7 / 10 * d) dv gd.
Proof.
  intros Hnv Hdv Hne Hl. unfold vd_upfactor. rewrite vdot_fin. cbn [nsqrt EArith]. rewrite sqrt_fin by apply rdot_self_nonneg.
  assert (H7 : @nlit EArith 7 (-1) = Fin (7 / 10)) by reflexivity. rewrite H7.
  change (@n1 EArith) with (Fin 1). cbn [nmul ndiv EArith er_mul].
  pose proof (rdot_self_nonneg gv) as HG. set (S := rdot gv gv) in *.
  assert (H1 : exists u1, @pymin EArith (Fin 1) (er_div (Fin (7 / 10 * nv)) (Fin (sqrt S))) = Fin u1 /\ 0 <= u1 <= 1 /\ u1 * u1 * S <= 49 / 100 * (nv * nv)).
  { unfold pymin. cbn [nltb EArith]. destruct (Req_dec (sqrt S) 0) as [Hz|Hz].
    - exists 1. cbn [er_div]. rewrite Hz. destruct (Req_EM_T 0 0); [|lra]. unfold er_sgn.
      destruct (Rlt_dec 0 (7 / 10 * nv)); [|nra]. cbn. split; [reflexivity|]. split; [lra|].
      apply sqrt_eq_0 in Hz; [rewrite Hz; nra|exact HG].
    - rewrite div_fin by exact Hz. pose proof (sqrt_pos S) as Hp. assert (Hs : 0 < sqrt S) by lra.
      set (t := 7 / 10 * nv / sqrt S). assert (Ht : 0 < t) by (apply Rdiv_lt_0_compat; nra).
      assert (HtS : t * t * S = 49 / 100 * (nv * nv)).
      { unfold t. rewrite <- (sqrt_sqrt S HG) at 3. field. lra. }
      cbn [er_ltb]. destruct (Rltb t 1) eqn:E; rb.
      + exists t. split; [reflexivity|]. split; lra.
      + exists 1. split; [reflexivity|]. split; [lra|]. rewrite <- HtS. assert (1 <= t * t) by nra. clear - H HG. nra. }
  destruct H1 as (u1 & -> & Hu1 & HuS).
  set (L := @vdiv EArith (fin dv) (map (@nabs EArith) (fin gd))).
  assert (HL : Forall2 (fun p x => match x with Fin r => snd p <> 0 /\ r * Rabs (snd p) = fst p /\ 0 < r | PInf => snd p = 0 | _ => False end) (combine dv gd) L).
  { unfold L, vdiv. clear - Hdv Hl. revert gd Hl. induction Hdv as [|x dv Hx Hdv IH]; intros [|g gd] Hl; try discriminate; cbn [map map2 combine]; constructor.
    - cbn [ndiv nabs EArith er_abs er_div fst snd]. destruct (Req_EM_T (Rabs g) 0) as [Hg|Hg].
      + unfold er_sgn. destruct (Rlt_dec 0 x); [|lra]. destruct (Req_dec g 0) as [|Hn]; [assumption|]. exfalso. apply (Rabs_no_R0 g Hn Hg).
      + pose proof (Rabs_pos g). split; [intros ->; rewrite Rabs_R0 in Hg; lra|]. split; [field; exact Hg|]. apply Rdiv_lt_0_compat; lra.
    - apply IH. cbn in Hl. lia. }
  assert (HLne : L <> []). { intros HN. rewrite HN in HL. inversion HL as [Hc|]. destruct dv, gd; try discriminate; congruence. }
  assert (HLok : Forall okmin L).
  { clear - HL. induction HL as [|[d g] x l L' H HL IH]; constructor; [|exact IH]. destruct x; cbn in *; try tauto. lra. }
  destruct (vmin_ok L HLne HLok) as [Hmin Hle]. set (mn := @vmin ENum L) in *.
  assert (H2 : exists u, @pymin EArith (Fin u1) (er_mul (Fin (7 / 10)) mn) = Fin u /\ 0 <= u <= u1 /\
                 forall m, mn = Fin m -> u <= 7 / 10 * m).
  { unfold pymin. cbn [nltb EArith]. destruct mn as [m| | |]; cbn in Hmin; try tauto.
    - cbn [er_mul er_ltb]. destruct (Rltb (7 / 10 * m) u1) eqn:E; rb; eexists; (split; [reflexivity|]); (split; [lra|]);
        intros m' Hm'; injection Hm' as <-; lra.
    - cbn [er_mul]. unfold er_sgn. destruct (Rlt_dec 0 (7 / 10)); [|lra]. cbn. exists u1. split; [reflexivity|]. split; [lra|discriminate]. }
  destruct H2 as (u & Hpu & Hu & Hum). exists u. split; [exact Hpu|]. split; [lra|]. split.
  - assert (u * u <= u1 * u1) by nra. nra.
  - clear HLne HLok HuS. clearbody mn.
    assert (HI : forall r, In (Fin r) L -> u <= 7 / 10 * r).
    { intros r Hr. destruct (Hle r Hr) as (m & E & Hm). specialize (Hum m E). lra. }
    clear - HL HI Hu Hdv Hl. clearbody L. revert gd L Hl HL HI. induction Hdv as [|x dv Hx Hdv IH]; intros [|g gd] L Hl HL HI; try discriminate; constructor.
    + cbn in HL. inversion HL as [|? y ? L' Hy HL']; subst. cbn [fst snd] in Hy.
      rewrite Rabs_mult, (Rabs_right u) by lra. destruct y as [r| | |]; try tauto.
      * destruct Hy as (Hg & Hr & Hr0). pose proof (HI r (or_introl eq_refl)). pose proof (Rabs_pos g). nra.
      * rewrite Hy, Rabs_R0. lra.
    + cbn in HL. inversion HL as [|? y ? L' Hy HL']; subst. apply (IH gd L'); [cbn in Hl; lia|exact HL'|]. intros r Hr. apply HI. right. exact Hr.
Qed.

(** ** One update of the shape *)
Definition within70 (a b : R) : Prop := 3 / 10 * a <= b <= 17 / 10 * a.

Lemma unit_squares (vv : list R) : 0 < rdot vv vv ->
  rsum (map (fun x => x * x) (map (fun x => x / sqrt (rdot vv vv)) vv)) = 1.
Proof.
  intros Hq. set (q := rdot vv vv) in *. assert (Hs : sqrt q * sqrt q = q) by (apply sqrt_sqrt; lra).
  assert (Hr : 0 < sqrt q) by (apply sqrt_lt_R0; exact Hq).
  rewrite map_map.
  assert (H : forall l, rsum (map (fun x => x / sqrt q * (x / sqrt q)) l) = rdot l l / q).
  { unfold rdot. induction l as [|x l IH]; cbn; [unfold Rdiv; lra|]. rewrite IH.
    replace (x / sqrt q * (x / sqrt q)) with (x * x / q) by (rewrite <- Hs at 1; field; lra). unfold Rdiv. ring. }
  rewrite H. fold q. field. lra.
Qed.

Lemma moved_nonzero (vv g : list R) u : length g = length vv -> 0 < rdot vv vv ->
  u * u * rdot g g <= 49 / 100 * rdot vv vv ->
  0 < rdot (map2 (fun v x => v + u * x) vv g) (map2 (fun v x => v + u * x) vv g).
Proof.
  intros Hl Hq Hu. set (z := map2 _ vv g).
  pose proof (rdot_self_nonneg z) as H0. destruct (Req_dec (rdot z z) 0) as [Hz|]; [exfalso|lra].
  assert (HE : rdot vv vv = u * u * rdot g g); [|lra].
  clear Hu Hq H0. unfold z, rdot in *. clear z. revert g Hl Hz. induction vv as [|v vv IH]; intros [|x g] Hl Hz; try discriminate; cbn in *; [lra|].
  pose proof (rdot_self_nonneg (map2 (fun v x => v + u * x) vv g)) as Hn. unfold rdot in Hn.
  pose proof (Rle_0_sqr (v + u * x)) as Hp. unfold Rsqr in Hp.
  assert (Ha : (v + u * x) * (v + u * x) = 0) by lra.
  assert (Hb : rsum (map2 Rmult (map2 (fun v x => v + u * x) vv g) (map2 (fun v x => v + u * x) vv g)) = 0) by lra.
  injection Hl as Hl. rewrite (IH g Hl Hb).
  assert (v + u * x = 0) by (apply Rsqr_0_uniq; exact Ha). assert (v = - (u * x)) by lra. subst v. ring.
Qed.

Lemma add_scaled_fin (v g : list R) u : @vadd EArith (fin v) (@vscale EArith (Fin u) (fin g)) = fin (map2 (fun v x => v + u * x) v g).
Proof.
  unfold vadd, vscale. revert g. induction v as [|a v IH]; intros [|x g]; cbn [map map2]; try reflexivity.
  f_equal. apply IH.
Qed.
Lemma fins_app_len (l : list er) d : fins l -> length l = d -> exists r, l = fin r /\ length r = d.
Proof. intros H Hl. destruct (isfin_fin l H) as (r & ->). exists r. split; [reflexivity|]. rewrite map_length in Hl. exact Hl. Qed.

(** the derived quantities of a direction v: |v|^2, |v|, v/|v| and its squares *)
Definition dirn (vv : list R) : list R := map (fun x => x / sqrt (rdot vv vv)) vv.

Theorem vd_update_fin (d : nat) (c1 cmu : er) (w : list er) (ary : list (list er)) (pc : list er) (cond : bool) (dv vv : list R) :
  isfin c1 -> isfin cmu -> fins w -> Forall (fun y => fins y) ary -> fins pc -> length pc = d ->
  length dv = d -> length vv = d -> Forall (fun x => 0 < x) dv -> 0 < rdot vv vv ->
  exists vv' dv',
    @vd_update EArith (@vmax ENum) (@vmin ENum) d c1 cmu w ary pc cond (fin dv) (fin vv) (Fin (rdot vv vv))
       (Fin (sqrt (rdot vv vv))) (fin (dirn vv)) (fin (map (fun x => x * x) (dirn vv))) = (fin vv', fin dv') /\
    length vv' = d /\ length dv' = d /\ Forall2 within70 dv dv' /\ 0 < rdot vv' vv'.
Proof.
  intros Hc1 Hcmu Hw Hy Hpc Lpc Ldv Lvv Hdv Hq.
  assert (Hr : 0 < sqrt (rdot vv vv)) by (apply sqrt_lt_R0; exact Hq).
  assert (Hd : dv <> []). { intros ->. destruct vv; [cbn in Hq; lra|cbn in *; lia]. }
  set (q := rdot vv vv) in *. set (vn := dirn vv). set (nn := map (fun x => x * x) vn).
  assert (Lvn : length vn = d) by (unfold vn, dirn; rewrite map_length; exact Lvv).
  assert (Lnn : length nn = d) by (unfold nn; rewrite map_length; exact Lvn).
  assert (Hnn : Forall (fun x => 0 <= x) nn).
  { apply Forall_forall. intros y Hy'. apply in_map_iff in Hy'. destruct Hy' as (x & <- & _). nra. }
  assert (Hs : rsum nn = 1) by (apply unit_squares; exact Hq).
  destruct (vd_alpha_fin nn q Hq Hnn Hs) as (al & av & b & iv & HA & Lav & Liv & Hav & Hden).
  unfold vd_update. rewrite HA.
  match goal with |- context [if @neqb EArith cmu ?z then ?a else ?b] => set (PM := if @neqb EArith cmu z then a else b) end.
  assert (HPM : fins (fst PM) /\ fins (snd PM) /\ length (fst PM) = d /\ length (snd PM) = d).
  { unfold PM. destruct (neqb _ _).
    - cbn [fst snd]. repeat split; try apply fins_repeat0; apply repeat_length.
    - destruct (pq_mu_fin d (fin vn) q (map (fun y => @vdiv EArith y (fin dv)) ary) w) as [H1 H2]; try assumption; try apply fin_isfin.
      { apply Forall_forall. intros y Hy'. apply in_map_iff in Hy'. destruct Hy' as (x & <- & Hx).
        apply fins_vdiv; [|apply fin_posf, Hdv]. rewrite Forall_forall in Hy. apply Hy, Hx. }
      split; [exact H1|]. split; [exact H2|]. unfold pq_mu, vmat. cbn [fst snd]. rewrite !map_length, seq_length. auto. }
  clearbody PM. destruct PM as [pm qm]. cbn [fst snd] in HPM. destruct HPM as (Hpm & Hqm & Lpm & Lqm).
  match goal with |- context [if @neqb EArith c1 ?z then ?a else ?b] => set (P1 := if @neqb EArith c1 z then a else b) end.
  assert (HP1 : fins (fst P1) /\ fins (snd P1) /\ length (fst P1) = d /\ length (snd P1) = d).
  { unfold P1. destruct (neqb _ _).
    - cbn [fst snd]. repeat split; try apply fins_repeat0; apply repeat_length.
    - assert (Hpd : fins (@vdiv EArith pc (fin dv))) by (apply fins_vdiv; [exact Hpc|apply fin_posf, Hdv]).
      destruct (pq_one_fin (fin vn) q (@vdiv EArith pc (fin dv))) as [H1 H2]; try assumption; try apply fin_isfin.
      split; [exact H1|]. split; [exact H2|]. unfold pq_one, vdiv. cbn [fst snd]. repeat rewrite ?map2_length, ?map_length. elia. }
  clearbody P1. destruct P1 as [p1 q1]. cbn [fst snd] in HP1. destruct HP1 as (Hp1 & Hq1 & Lp1 & Lq1).
  match goal with |- context [if cond then ?a else ?b] => set (PQ := if cond then a else b) end.
  assert (HPQ : fins (fst PQ) /\ fins (snd PQ) /\ length (fst PQ) = d /\ length (snd PQ) = d).
  { assert (LS : forall k (l : list er), length (@vscale EArith k l) = length l) by (intros; apply map_length).
    unfold PQ. destruct cond; cbn [fst snd].
    - repeat split; try (apply fins_add; apply fins_scale; assumption); unfold vadd; rewrite map2_length, !LS; elia.
    - repeat split; try (apply fins_scale; assumption); rewrite LS; assumption. }
  clearbody PQ. destruct PQ as [pv qv]. cbn [fst snd] in HPQ. destruct HPQ as (Hpv & Hqv & Lpv & Lqv).
  match goal with |- context [if @nltb EArith ?x ?y then ?a else ?b] => set (G := if @nltb EArith x y then a else b) end.
  assert (HG : exists gv gd u, G = (fin gv, fin gd, Fin u) /\ length gv = d /\ length gd = d /\ 0 <= u <= 1 /\
     u * u * rdot gv gv <= 49 / 100 * q /\ Forall2 (fun d g => Rabs (u * g) <= 7 / 10 * d) dv gd).
  { unfold G. destruct (nltb _ _).
    - pose proof (ngv_ngd_fin dv (fin vn) nn (sqrt q) q al av b iv pv qv Hq Hr (fin_isfin vn) Hav Hden Hpv Hqv) as HN.
      pose proof (ngv_ngd_length dv (fin vn) nn (sqrt q) q al av b iv pv qv d Ldv) as HL.
      rewrite map_length in HL. specialize (HL Lvn Lnn (eq_trans Lav Lnn) (eq_trans Liv Lnn) Lpv Lqv).
      cbv zeta in HN, HL. set (NG := @ngv_ngd EArith _ _ _ _ _ _ _ _ _ _ _) in *. clearbody NG. destruct NG as [gv gd].
      cbn [fst snd] in HN, HL. destruct HN as [Hgv Hgd], HL as [Lgv Lgd].
      destruct (fins_app_len gv d Hgv Lgv) as (rgv & -> & Lrv). destruct (fins_app_len gd d Hgd Lgd) as (rgd & -> & Lrd).
      destruct (upfactor_fin (sqrt q) dv rgv rgd Hr Hdv Hd (eq_trans Lrd (eq_sym Ldv))) as (u & Hup & Hu01 & HuS & Hud).
      exists rgv, rgd, u. split.
      { f_equal. exact Hup. }
      split; [exact Lrv|]. split; [exact Lrd|]. split; [exact Hu01|]. split; [|exact Hud].
      rewrite sqrt_sqrt in HuS by lra. exact HuS.
    - exists (repeat 0 d), (repeat 0 d), 1. split.
      { assert (HR : fin (repeat 0 d) = repeat (Fin 0) d) by (clear; induction d; cbn; congruence). rewrite HR. reflexivity. }
      split; [apply repeat_length|]. split; [apply repeat_length|]. split; [lra|]. split.
      + replace (rdot (repeat 0 d) (repeat 0 d)) with 0; [nra|]. clear. unfold rdot. induction d; cbn; [reflexivity|]. rewrite <- IHd. ring.
      + clear - Hdv Ldv. subst d. induction Hdv as [|x l Hx Hl IH]; cbn; constructor; [rewrite Rmult_0_r, Rabs_R0; lra|exact IH]. }
  clearbody G. destruct HG as (gv & gd & u & -> & Lgv & Lgd & Hu01 & HuS & Hud).
  rewrite !add_scaled_fin.
  exists (map2 (fun v x => v + u * x) vv gv), (map2 (fun v x => v + u * x) dv gd). split; [reflexivity|].
  split; [rewrite map2_length; lia|]. split; [rewrite map2_length; lia|]. split.
  - clear - Hud. induction Hud as [|x g l gl H Hl IH]; cbn; constructor; [|exact IH].
    unfold within70. revert H. unfold Rabs. destruct (Rcase_abs (u * g)); intros; lra.
  - apply moved_nonzero; [lia|exact Hq|exact HuS].
Qed.
