(** C72: every coordinate of a new model of na is drawn uniformly from the section of the Voronoi
    cell of its parent along that axis (exact arithmetic, all bounds with lower < upper). *)
From Coq Require Import Reals Lra Psatz Permutation.
From Verif Require Import Base Num NumR NumE Env Common DE NA Hoare EvalRules Gen Steps Runs Best Inst Laws Safe
  Feas Weights FeasPso FeasNa FirstPop VdReal CmaStop Explore Cells.
Open Scope R_scope.

(** ** Specification *)
(** The walk from the parent [k] to the new model [y] changes one coordinate after the other.
    [step j t y k]: coordinates before [j] are those of [y], coordinate [j] is [t], the others are
    those of [k]. *)
Definition step (j : nat) (t : R) (y k : list R) : list R := firstn j y ++ t :: skipn (S j) k.

(** [t] is in the section along axis [j] of the cell of [k] in the unit cube: no model of [U] is
    closer than [k]. *)
Definition InCell (U : list (list R)) (k y : list R) (j : nat) (t : R) : Prop :=
  0 <= t <= 1 /\ forall u, In u U -> nd2 (step j t y k) k <= nd2 (step j t y k) u.

(** Coordinate [j] of [y] is drawn from an interval around the one of the parent within the section;
    the interval is the whole section unless the walk has reached the border of the cell. *)
Definition Draw (U : list (list R)) (k y : list R) (j : nat) : Prop :=
  exists lo hi rho, 0 <= rho < 1 /\ nth j y 0 = lo + (hi - lo) * rho /\ lo <= nth j k 0 <= hi /\
    (forall t, lo <= t <= hi -> InCell U k y j t) /\
    ((forall u, In u U -> nth j u 0 <> nth j k 0 ->
        nd2 (step j (nth j k 0) y k) k < nd2 (step j (nth j k 0) y k) u) ->
     forall t, InCell U k y j t -> lo <= t <= hi).

(** A generation [l] after the models [h]. *)
Definition Walks (rows : list (list er)) (nr : nat) (h l : list (list er * er)) : Prop :=
  exists ix, Elite nr h ix /\
  forall i j, (i < length l)%nat -> (j < length rows)%nat ->
    Draw (map (fun e => scaled rows (fst e)) h) (scaled rows (pt h (nth (i mod nr) ix 0%nat)))
         (scaled rows (pt l i)) j.
Inductive Walked (rows : list (list er)) (p nr : nat) : list (list er * er) -> list (list er * er) -> Prop :=
| Wk_init l t : length l = p -> Permutation t l -> Walked rows p nr l t
| Wk_step h t l t' : Walked rows p nr h t -> length l = p -> Walks rows nr h l ->
    Permutation t' l -> Walked rows p nr (l ++ h) (t ++ t').

(** ** Proof *)
Lemma low_in lim r a : @na_low ENum lim (Fin r) = Fin a -> a = 0 \/ (In (Fin a) lim /\ a <= r).
Proof.
  intros Ha. unfold na_low in Ha. change (@num_arith ENum) with EArith in *.
  destruct (filter _ lim) as [|x l] eqn:Hfl; [left; injection Ha as <-; reflexivity|].
  assert (Hi : In (@vmax ENum (x :: l)) (x :: l)) by (apply vmax_in; discriminate).
  rewrite <- Hfl in Hi at 2. apply filter_In in Hi. destruct Hi as [Hin Hle].
  destruct (@vmax ENum (x :: l)) as [M| | |]; cbn in Hle; try discriminate.
  - rb. unfold pymax in Ha. cbn in Ha. rewrite ?Rlit_0 in Ha. destruct (Rltb M 0) eqn:HM; rb; injection Ha as <-; [left; reflexivity|right].
    split; [exact Hin|exact Hle].
  - unfold pymax in Ha. cbn in Ha. injection Ha as <-. left. rewrite ?Rlit_0. reflexivity.
Qed.
Lemma high_in lim r a : @na_high ENum lim (Fin r) = Fin a -> a = 1 \/ (In (Fin a) lim /\ r <= a).
Proof.
  intros Ha. unfold na_high in Ha. change (@num_arith ENum) with EArith in *.
  destruct (filter _ lim) as [|x l] eqn:Hfl; [left; injection Ha as <-; reflexivity|].
  assert (Hi : In (@vmin ENum (x :: l)) (x :: l)) by (apply vmin_in; discriminate).
  rewrite <- Hfl in Hi at 2. apply filter_In in Hi. destruct Hi as [Hin Hle].
  destruct (@vmin ENum (x :: l)) as [M| | |]; cbn in Hle; try discriminate.
  - rb. unfold pymin in Ha. cbn in Ha. rewrite ?Rlit_0 in Ha. destruct (Rltb 1 M) eqn:HM; rb; injection Ha as <-; [left; reflexivity|right].
    split; [exact Hin|exact Hle].
  - unfold pymin in Ha. cbn in Ha. injection Ha as <-. left. rewrite ?Rlit_0. reflexivity.
Qed.

Lemma lim_gt k u d1 d2 v : u < k -> sq (v - k) + d1 < sq (v - u) + d2 -> / 2 * (k + u + (d1 - d2) / (k - u)) < v.
Proof.
  intros H. set (t := (d1 - d2) / (k - u)).
  assert (Ht : d1 - d2 = t * (k - u)) by (unfold t; field; lra). clearbody t. unfold sq. intros; nra.
Qed.
Lemma lim_lt k u d1 d2 v : k < u -> sq (v - k) + d1 < sq (v - u) + d2 -> v < / 2 * (k + u + (d1 - d2) / (k - u)).
Proof.
  intros H. set (t := (d1 - d2) / (k - u)).
  assert (Ht : d1 - d2 = t * (k - u)) by (unfold t; field; lra). clearbody t. unfold sq. intros; nra.
Qed.

Lemma half_inf c q a : er_mul (Fin (/ 2)) (er_add (Fin c) (er_div (Fin q) (Fin 0))) <> Fin a.
Proof.
  cbn [er_div]. destruct (Req_EM_T 0 0) as [_|]; [|lra]. unfold er_sgn.
  destruct (Rlt_dec 0 q); [|destruct (Rlt_dec q 0)]; cbn; unfold er_sgn;
    try (destruct (Rlt_dec 0 (/ 2)); [|destruct (Rlt_dec (/ 2) 0)]); try discriminate; lra.
Qed.

Lemma step_upd t (r k : list R) : forall j, length r = length k -> (j < length r)%nat ->
  (forall l, (j <= l)%nat -> nth l r 0 = nth l k 0) -> step j t r k = upd j t r.
Proof.
  unfold step. revert k. induction r as [|x r IH]; intros [|y k] j Hl Hj Hs; cbn in Hl, Hj; try lia.
  destruct j as [|j].
  - cbn. f_equal. apply (nth_ext _ _ 0 0); [lia|]. intros l _. symmetry. exact (Hs (S l) ltac:(lia)).
  - cbn. f_equal. apply (IH k j); [lia|lia|]. intros l Hl'. exact (Hs (S l) ltac:(lia)).
Qed.
Lemma firstn_upd {A} v (r : list A) : forall j l, (l <= j)%nat -> firstn l (upd j v r) = firstn l r.
Proof.
  induction r as [|x r IH]; intros [|j] [|l] H; cbn; try reflexivity; try lia. rewrite IH by lia. reflexivity.
Qed.
Lemma Draw_upd U k v r j l : (l < j)%nat -> Draw U k r l -> Draw U k (upd j v r) l.
Proof.
  intros Hl (lo & hi & rho & H1 & H2 & H3 & H4 & H5).
  assert (Hs : forall t, step l t (upd j v r) k = step l t r k)
    by (intros t; unfold step; rewrite firstn_upd by lia; reflexivity).
  exists lo, hi, rho. rewrite upd_nth_other by lia. unfold InCell in *. rewrite Hs.
  split; [exact H1|]. split; [exact H2|]. split; [exact H3|]. split.
  - intros t Ht. rewrite Hs. apply H4, Ht.
  - intros Hst t. rewrite Hs. apply H5, Hst.
Qed.
Lemma upd_self {A} (d : A) (r : list A) : forall j, upd j (nth j r d) r = r.
Proof. induction r as [|x r IH]; intros [|j]; cbn; auto. rewrite IH. reflexivity. Qed.

(** Along the first axis the walk starts at the parent: the interval is always the whole section. *)
Theorem C72_first_axis U k y : k <> [] -> Draw U k y 0 ->
  (forall u, In u U -> length u = length k) ->
  exists lo hi rho, 0 <= rho < 1 /\ nth 0 y 0 = lo + (hi - lo) * rho /\ lo <= nth 0 k 0 <= hi /\
    forall t, (0 <= t <= 1 /\ forall u, In u U -> nd2 (t :: tl k) k <= nd2 (t :: tl k) u) <-> lo <= t <= hi.
Proof.
  intros Hk (lo & hi & rho & H1 & H2 & H3 & H4 & H5) Hl. exists lo, hi, rho.
  split; [exact H1|]. split; [exact H2|]. split; [exact H3|]. intros t.
  assert (Hs : forall t, step 0 t y k = t :: tl k) by (intros t'; unfold step; destruct k; reflexivity).
  split; intros Ht.
  - apply H5.
    + intros u Hu Hne. rewrite Hs. destruct k as [|a k]; [contradiction|]. cbn [tl nth].
      rewrite nd2_refl. specialize (Hl u Hu). destruct u as [|b u]; [discriminate|]. cbn [nd2 nth] in *.
      assert (Hp : forall a b, 0 <= nd2 a b).
      { induction a0 as [|x0 a0 IH]; intros [|y0 b0]; cbn; try lra. specialize (IH b0).
        pose proof (Rle_0_sqr (x0 - y0)). unfold sq, Rsqr in *. lra. }
      specialize (Hp k u). assert (0 < sq (a - b)) by (unfold sq; nra). lra.
    + unfold InCell. rewrite Hs. exact Ht.
  - specialize (H4 t Ht). unfold InCell in H4. rewrite Hs in H4. exact H4.
Qed.

(** After the last axis: the new model is in the cell of its parent. *)
Theorem C72_in_cell U k y : length y = length k -> (forall j, (j < length k)%nat -> Draw U k y j) ->
  forall u, In u U -> nd2 y k <= nd2 y u.
Proof.
  intros Hl HD u Hu. destruct (Nat.eq_dec (length k) 0) as [H0|H0].
  - destruct y; [|cbn in Hl; lia]. destruct k, u; cbn in *; lra || lia.
  - set (j := (length k - 1)%nat).
    assert (Hj : (j < length k)%nat) by (unfold j; lia).
    destruct (HD j Hj) as (lo & hi & rho & H1 & H2 & H3 & H4 & _).
    assert (Hv : lo <= nth j y 0 <= hi) by nra. destruct (H4 _ Hv) as [_ H]. specialize (H u Hu).
    assert (Hs : step j (nth j y 0) y k = y).
    { unfold step. rewrite skipn_all2 by (unfold j; lia).
      rewrite <- (firstn_skipn j y) at 3. f_equal. rewrite <- Hl in Hj. clear - Hj Hl j.
      assert (Hlast : length (skipn j y) = 1%nat) by (rewrite skipn_length; unfold j; lia).
      assert (Hn : nth 0 (skipn j y) 0 = nth j y 0).
      { rewrite <- (firstn_skipn j y) at 2. rewrite app_nth2; rewrite firstn_length; [|lia]. f_equal. lia. }
      destruct (skipn j y) as [|x [|z l]]; try discriminate. cbn in Hn. rewrite Hn. reflexivity. }
    rewrite Hs in H. exact H.
Qed.

Section Axis.
  Context {E : Env ENum} (HE : EnvOK) (Pe : list er -> Prop) (Pc : list (list er) -> CbState -> Prop).
  Context (d : nat) (mask : list bool) (xk : list R) (U : list (list R)).
  Context (Hmask : forall j, (j < d)%nat -> nth j mask false = true).
  Context (Hk : Unit d xk) (HU : Forall (Unit d) U).

  Definition GI (j : nat) (acc : list er * er * list er) : Prop := exists r D1 D2,
    acc = (fin r, Fin D1, fin D2) /\ Unit d r /\ (forall u, In u U -> nd2 r xk <= nd2 r u) /\
    (forall l, (j <= l)%nat -> nth l r 0 = nth l xk 0) /\
    (forall l, (l < j)%nat -> Draw U xk r l) /\
    ((j < d)%nat -> D1 = nd2 r xk - sq (nth j r 0 - nth j xk 0) /\
                    D2 = map (fun u => nd2 r u - sq (nth j r 0 - nth j u 0)) U).

  Lemma safe_unif (lo hi : R) :
    safe Pe Pc (@uniform1 ENum E (Fin lo) (Fin hi)) (fun v => exists rho, 0 <= rho < 1 /\ v = Fin (lo + (hi - lo) * rho)).
  Proof.
    unfold uniform1. eapply safe_bind; [apply safe_urange|]. intros _ _. unfold uniform.
    eapply safe_bind; [apply (safe_rand _ _ HE)|]. intros u [H1 H2].
    destruct u as [u| | |]; cbn in H1, H2; try discriminate. rb. rewrite ?Rlit_0 in *.
    apply safe_ret. exists u. split; [lra|]. reflexivity.
  Qed.

  Lemma safe_axis_walk acc j : (j < d)%nat -> GI j acc ->
    safe Pe Pc (na_axis d mask (fin xk) (map (fun u => fin u) U) acc j) (GI (S j)).
  Proof.
    intros Hj (r & D1 & D2 & -> & Hr & Hcell & Hsame & Hpast & HD). destruct (HD Hj) as [HD1 HD2]. clear HD.
    destruct Hr as [Hrl Hrb]. destruct Hk as [Hkl Hkb].
    unfold na_axis. rewrite (Hmask j Hj). cbn [negb]. cbv zeta.
    change (@n0 (@num_arith ENum)) with (Fin 0). rewrite !nth_fin.
    set (kj := nth j xk 0). set (rj := nth j r 0).
    assert (Hrk : rj = kj) by (apply Hsame; lia).
    assert (Hrj : 0 <= rj <= 1).
    { rewrite Forall_forall in Hrb. apply Hrb, nth_In. lia. }
    rewrite map_map.
    set (lim := na_lims _ _ _ _).
    destruct (na_low_ok lim rj Hrj) as (lo & Elo & Hlo). destruct (na_high_ok lim rj Hrj) as (hi & Ehi & Hhi).
    rewrite Elo, Ehi. eapply safe_bind; [apply safe_unif|].
    intros ve (rho & Hrho & ->). set (v := lo + (hi - lo) * rho).
    assert (Hv : lo <= v <= hi) by (unfold v; nra).
    set (lm := fun u => er_mul (Fin (/ 2)) (er_add (er_add (Fin kj) (Fin (nth j u 0)))
             (er_div (er_sub (Fin D1) (Fin (nd2 r u - sq (rj - nth j u 0)))) (er_sub (Fin kj) (Fin (nth j u 0)))))).
    assert (Elims : lim = map lm U).
    { unfold lim, na_lims. rewrite HD2, map_map.
      change (@nlit (@num_arith ENum) 5 (-1)) with (Fin (Rlit 5 (-1))). rewrite half_lit. unfold lm.
      clear. induction U as [|u' U' IH]; [reflexivity|]. cbn [map map2]. rewrite IH.
      rewrite nth_fin. reflexivity. }
    assert (Hlims : forall u, In u U -> In (lm u) lim).
    { intros u Hu. rewrite Elims. apply in_map, Hu. }
    assert (Hbase : forall u, In u U -> sq (rj - kj) + D1 <= sq (rj - nth j u 0) + (nd2 r u - sq (rj - nth j u 0))).
    { intros u Hu. specialize (Hcell u Hu). rewrite HD1. fold rj kj. lra. }
    assert (Hnew : forall t u, lo <= t <= hi -> In u U -> sq (t - kj) + D1 <= sq (t - nth j u 0) + (nd2 r u - sq (rj - nth j u 0))).
    { intros t u Ht Hu. specialize (Hlims u Hu). specialize (Hbase u Hu). unfold lm in Hlims. set (uj := nth j u 0) in *.
      set (d2 := nd2 r u - sq (rj - uj)) in *.
      cbn [er_sub er_add] in Hlims.
      destruct (Rtotal_order uj kj) as [Hlt|[Heq|Hgt]].
      - rewrite div_fin in Hlims by lra. cbn [er_add er_mul] in Hlims.
        apply lim_ge; [lra|]. apply lim_ge in Hbase; [|lra].
        pose proof (low_lim _ _ _ _ Hrj Elo Hlims Hbase). lra.
      - assert (D1 <= d2) by (rewrite Heq in *; lra). unfold sq. rewrite Heq. lra.
      - rewrite div_fin in Hlims by lra. cbn [er_add er_mul] in Hlims.
        apply lim_le; [lra|]. apply lim_le in Hbase; [|lra].
        pose proof (high_lim _ _ _ _ Hrj Ehi Hlims Hbase). lra. }
    (* the interval is the whole section *)
    assert (Hfin : forall u a, lm u = Fin a -> nth j u 0 <> kj /\
        a = / 2 * (kj + nth j u 0 + (D1 - (nd2 r u - sq (rj - nth j u 0))) / (kj - nth j u 0))).
    { intros u a Ha. unfold lm in Ha. cbn [er_sub er_add] in Ha.
      destruct (Req_dec (nth j u 0) kj) as [Heq|Hne].
      - exfalso. rewrite Heq in Ha. replace (kj - kj) with 0 in Ha by lra. revert Ha.
        apply half_inf.
      - split; [exact Hne|]. rewrite div_fin in Ha by lra. cbn [er_add er_mul] in Ha. injection Ha as <-. reflexivity. }
    assert (Hwhole : (forall u, In u U -> nth j u 0 <> kj ->
          sq (rj - kj) + D1 < sq (rj - nth j u 0) + (nd2 r u - sq (rj - nth j u 0))) ->
        forall t, 0 <= t <= 1 -> (forall u, In u U -> sq (t - kj) + D1 <= sq (t - nth j u 0) + (nd2 r u - sq (rj - nth j u 0))) ->
        lo <= t <= hi).
    { intros Hst t Ht Hin. split.
      - destruct (low_in _ _ _ Elo) as [->|[Hi Hle]]; [lra|]. rewrite Elims in Hi. apply in_map_iff in Hi.
        destruct Hi as (u & Hu & HuU). destruct (Hfin u _ Hu) as [Hne ->].
        specialize (Hst u HuU Hne). specialize (Hin u HuU).
        destruct (Rtotal_order (nth j u 0) kj) as [Hlt|[Heq|Hgt]]; [|contradiction|].
        + apply lim_ge; [lra|exact Hin].
        + exfalso. apply lim_lt in Hst; [|lra]. lra.
      - destruct (high_in _ _ _ Ehi) as [->|[Hi Hle]]; [lra|]. rewrite Elims in Hi. apply in_map_iff in Hi.
        destruct Hi as (u & Hu & HuU). destruct (Hfin u _ Hu) as [Hne ->].
        specialize (Hst u HuU Hne). specialize (Hin u HuU).
        destruct (Rtotal_order (nth j u 0) kj) as [Hlt|[Heq|Hgt]]; [|contradiction|].
        + exfalso. apply lim_gt in Hst; [|lra]. lra.
        + apply lim_le; [lra|exact Hin]. }
    set (r' := upd j v r).
    assert (Er' : @upd (@T (@num_arith ENum)) j (Fin v) (fin r) = fin r').
    { unfold r'. clear. revert j. induction r as [|x r IH]; intros [|j]; cbn; auto. rewrite IH. reflexivity. }
    assert (Hr'l : length r' = d) by (unfold r'; rewrite upd_length; exact Hrl).
    assert (Hndt : forall t u, length u = d -> nd2 (upd j t r) u = nd2 r u - sq (rj - nth j u 0) + sq (t - nth j u 0)).
    { intros t u Hu. rewrite nd2_upd by lia. reflexivity. }
    assert (Hnd : forall u, length u = d -> nd2 r' u = nd2 r u - sq (rj - nth j u 0) + sq (v - nth j u 0))
      by (intros u Hu; apply Hndt, Hu).
    assert (Hlu : forall u, In u U -> length u = d).
    { intros u Hu. rewrite Forall_forall in HU. apply HU, Hu. }
    assert (HUnit : Unit d r').
    { split; [exact Hr'l|]. apply Forall_upd; [lra|exact Hrb]. }
    assert (Hcell' : forall u, In u U -> nd2 r' xk <= nd2 r' u).
    { intros u Hu. rewrite !Hnd by auto. specialize (Hnew v u Hv Hu). fold rj kj in HD1. fold kj. lra. }
    assert (Hsame' : forall l, (S j <= l)%nat -> nth l r' 0 = nth l xk 0).
    { intros l Hl. unfold r'. rewrite upd_nth_other by lia. apply Hsame. lia. }
    assert (Hstep : forall t, step j t r' xk = upd j t r).
    { intros t. unfold step, r'. rewrite firstn_upd by lia. apply step_upd; [lia|lia|exact Hsame]. }
    assert (Hpast' : forall l, (l < S j)%nat -> Draw U xk r' l).
    { intros l Hl. destruct (Nat.eq_dec l j) as [->|Hlj]; [|apply Draw_upd; [lia|apply Hpast; lia]].
      exists lo, hi, rho. split; [exact Hrho|]. split; [unfold r'; rewrite upd_nth_same by lia; reflexivity|].
      split; [fold kj; lra|]. unfold InCell. split.
      - intros t Ht. split; [lra|]. intros u Hu. rewrite Hstep, !Hndt by auto. specialize (Hnew t u Ht Hu).
        fold rj kj in HD1. fold kj. lra.
      - intros Hst t [Ht Hin]. apply Hwhole; [|exact Ht|].
        + intros u Hu Hne. specialize (Hst u Hu Hne). rewrite Hstep, !Hndt in Hst by auto.
          fold rj kj in HD1, Hst. clearbody rj kj. rewrite Hrk in *. lra.
        + intros u Hu. specialize (Hin u Hu). rewrite Hstep, !Hndt in Hin by auto. fold rj kj in HD1. fold kj in Hin. lra. }
    destruct (Nat.ltb_spec (S j) d) as [Hj'|Hj'].
    - apply safe_ret. rewrite Er', !nth_fin. unfold r' at 2 4. rewrite upd_nth_same by lia.
      exists r', (nd2 r' xk - sq (nth (S j) r' 0 - nth (S j) xk 0)),
             (map (fun u => nd2 r' u - sq (nth (S j) r' 0 - nth (S j) u 0)) U).
      split; [|split; [exact HUnit|split; [exact Hcell'|split; [exact Hsame'|split; [exact Hpast'|intros _; split; reflexivity]]]]].
      f_equal; [f_equal|].
      + unfold nsq. cbn [nsub nmul nadd EArith num_arith ENum er_sub er_mul er_add]. f_equal.
        rewrite (Hnd xk Hkl). fold kj. rewrite HD1. fold rj kj. unfold sq. ring.
      + rewrite HD2. rewrite !map_map.
        assert (HX : forall V, incl V U ->
          map2 (fun d2 u : _ => @nadd EArith d2 (@nsub EArith (@nsq EArith (@nsub EArith (nth j u (Fin 0)) (Fin v)))
                                   (@nsq EArith (@nsub EArith (nth (S j) u (Fin 0)) (Fin (nth (S j) r' 0))))))
               (map (fun x => Fin (nd2 r x - sq (nth j r 0 - nth j x 0))) V) (map (fun u => fin u) V)
          = map (fun x => Fin (nd2 r' x - sq (nth (S j) r' 0 - nth (S j) x 0))) V).
        { induction V as [|u V IH]; intros Hin; [reflexivity|]. cbn [map map2]. rewrite IH by (intros y Hy; apply Hin; right; exact Hy).
          f_equal. rewrite !nth_fin. unfold nsq. cbn [nsub nmul nadd EArith er_sub er_mul er_add]. f_equal.
          rewrite (Hnd u) by (apply Hlu, Hin; left; reflexivity). fold rj. unfold sq. ring. }
        apply HX. apply incl_refl.
    - apply safe_ret. rewrite Er'. exists r', D1, D2.
      split; [reflexivity|]. split; [exact HUnit|]. split; [exact Hcell'|]. split; [exact Hsame'|]. split; [exact Hpast'|]. lia.
  Qed.
  Lemma safe_cell_walk :
    safe Pe Pc (foldM (na_axis d mask (fin xk) (map (fun u => fin u) U))
                  (fin xk, Fin 0, map (fun u => @vsum EArith (map (@nsq EArith) (@vsub EArith (tl u) (tl (fin xk))))) (map (fun u => fin u) U))
                  (seq 0 d))
      (fun acc => exists r, fst (fst acc) = fin r /\ Unit d r /\ forall l, (l < d)%nat -> Draw U xk r l).
  Proof.
    eapply safe_conseq.
    - apply (safe_fold_seq Pe Pc _ GI).
      + exists xk, 0, (map (fun u => nd2 xk u - sq (nth 0 xk 0 - nth 0 u 0)) U).
        split; [|split; [exact Hk|split; [|split; [reflexivity|split; [intros l Hl; lia|intros _; split; [|reflexivity]]]]]].
        * f_equal. rewrite !map_map. apply map_ext_in. intros u Hu.
          assert (Hl : length u = length xk).
          { rewrite Forall_forall in HU. rewrite (proj1 (HU u Hu)). symmetry. apply Hk. }
          assert (Et : forall l : list R, tl (fin l) = fin (tl l)) by (intros []; reflexivity).
          rewrite !Et. unfold vsub. rewrite (map2_fin _ Rminus) by reflexivity.
          rewrite (map_fin _ sq) by reflexivity. rewrite vsum_fin. f_equal.
          rewrite nd2_sym. rewrite <- (Ropp_involutive (sq _)).
          replace (- - sq (nth 0 xk 0 - nth 0 u 0)) with (sq (nth 0 u 0 - nth 0 xk 0)) by (unfold sq; ring).
          rewrite <- nd2_tl by exact Hl.
          generalize (tl u) as a, (tl xk) as b. induction a as [|x a IH]; intros [|y b]; cbn; auto. rewrite IH. reflexivity.
        * intros u _. rewrite nd2_refl.
          assert (Hp : forall a b, 0 <= nd2 a b).
          { induction a as [|x a IH]; intros [|y b]; cbn; try lra. specialize (IH b). pose proof (Rle_0_sqr (x - y)). unfold sq, Rsqr in *. lra. }
          apply Hp.
        * rewrite nd2_refl. unfold sq. ring.
      + intros j a Hj Ha. apply safe_axis_walk; [lia|exact Ha].
    - intros acc (r & D1 & D2 & -> & Hr & _ & _ & Hp & _). exists r. split; [reflexivity|]. split; [exact Hr|]. intros l Hl. apply Hp. lia.
  Qed.
End Axis.

Lemma Draw_more U V k y j : incl U V -> (forall u, In u V -> u = k \/ In u U) -> Draw U k y j -> Draw V k y j.
Proof.
  intros HUV HVU (lo & hi & rho & H1 & H2 & H3 & H4 & H5). exists lo, hi, rho.
  split; [exact H1|]. split; [exact H2|]. split; [exact H3|]. split.
  - intros t Ht. destruct (H4 t Ht) as [Ht1 Ht2]. split; [exact Ht1|]. intros u Hu.
    destruct (HVU u Hu) as [->|Hu']; [lra|apply Ht2, Hu'].
  - intros Hst t [Ht1 Ht2]. apply H5; [|split; [exact Ht1|]].
    + intros u Hu. apply Hst, HUV, Hu.
    + intros u Hu. apply Ht2, HUV, Hu.
Qed.

Section RunWalks.
  Context {E : Env ENum} (HE : EnvOK).
  Context (A : @NAArgs ENum) (rows : list (list er)).
  Context (Hb : a_bounds (naa A) = D2 2 rows) (Hpr : proper rows).
  Context (HB : a_backend (naa A) <> Some "mpi"%string).
  Context (Hx0 : forall x, a_x0 (naa A) = Some x -> Forall (FBox rows) (nd_rows x)).
  Notation NC := (NC rows).
  Notation un := (@unnormalize ENum (@lows EArith rows) (@ups EArith rows)).

  Definition WR (P : @NAParams ENum) (Xall : list (list er)) (fit : list er) (X : list (list er)) : Prop :=
    forall i j, (i < na_p P)%nat -> (j < length rows)%nat ->
      Draw (map rv Xall) (rv (nth (parent P fit i) Xall [])) (rv (nth i X [])) j.

  Lemma safe_mutation_walks Pe Pc P Xall fit : NAParamsOf A P ->
    length fit = length Xall -> (0 < length Xall)%nat -> Forall NC Xall ->
    safe Pe Pc (na_mutation P Xall fit) (fun X => length X = na_p P /\ Forall NC X /\ WR P Xall fit X).
  Proof.
    intros HP Hl H0 HX. destruct (fins_of rows Hpr Xall HX) as (Y & -> & HY).
    destruct (npo_bounds _ _ HP) as (rows' & Hr' & Hlo & Hup). rewrite Hb in Hr'. injection Hr' as <-.
    pose proof (npo_d _ _ HP) as Hd. rewrite Hb in Hd. cbn [nd_len] in Hd.
    unfold na_mutation. cbv zeta. rewrite Hlo, Hup. eapply safe_conseq.
    - apply (safe_mapM _ _ _ _ (fun i x => exists r, x = fin r /\ Unit (length rows) r /\
         forall j, (j < length rows)%nat -> Draw Y (nth (parent P fit i) Y []) r j)).
      intros i _. unfold na_one. cbv zeta. fold (parent P fit i). rewrite Hd.
      set (k := parent P fit i).
      assert (Hk : (k < length Y)%nat).
      { unfold k. rewrite map_length in Hl, H0. change (@T (@num_arith ENum)) with er in *. rewrite <- Hl. apply (parent_lt HE). lia. }
      clearbody k.
      assert (Enth : @nth (@vec (@num_arith ENum)) k (map (fun u => fin u) Y) [] = fin (nth k Y []))
        by exact (map_nth (fun u => fin u) Y [] k).
      rewrite Enth.
      assert (Edel : @del (@vec (@num_arith ENum)) k (map (fun u => fin u) Y) = map (fun u => fin u) (del k Y)).
      { clear. revert k. induction Y as [|y Y IH]; intros [|k]; cbn; auto. rewrite IH. reflexivity. }
      rewrite Edel. eapply safe_bind.
      + apply (safe_cell_walk HE Pe Pc (length rows) _ (nth k Y []) (del k Y)).
        * intros j Hj. apply proper_mask; assumption.
        * rewrite Forall_forall in HY. apply HY, nth_In, Hk.
        * apply Forall_forall. intros u Hu. rewrite Forall_forall in HY. apply HY. eapply del_In, Hu.
      + intros [[x d1] d2] (r & Hx & Hr & Hc). cbn [fst] in *. apply safe_ret. exists r.
        split; [exact Hx|]. split; [exact Hr|]. intros j Hj. eapply Draw_more; [| |apply Hc, Hj].
        * intros u Hu. eapply del_In, Hu.
        * intros u Hu. apply (del_rest Y [] k u Hu).
    - intros X HF. assert (HXl : length X = na_p P).
      { apply Forall2_length in HF. rewrite seq_length in HF. symmetry. exact HF. }
      split; [exact HXl|]. split.
      + clear - HF Hpr. induction HF as [|? ? ? ? (r & -> & Hr & _)]; constructor; [apply NC_fin; assumption|assumption].
      + intros i j Hi Hj.
        assert (Hn : nth i (seq 0 (na_p P)) 0%nat = i) by (rewrite seq_nth; lia).
        assert (HFi : exists r, nth i X [] = fin r /\ Unit (length rows) r /\
         forall j, (j < length rows)%nat -> Draw Y (nth (parent P fit i) Y []) r j).
        { pose proof (F2_nth _ _ _ HF 0%nat [] i) as HH. cbv beta in HH. rewrite Hn in HH. apply HH. rewrite seq_length. exact Hi. }
        destruct HFi as (r & HXi & Hr & Hc).
        assert (Hxi : rv (nth i X []) = r) by (etransitivity; [apply (f_equal rv HXi)|apply rv_fin]).
        assert (Hpk : rv (nth (parent P fit i) (map (fun u => fin u) Y) []) = nth (parent P fit i) Y []).
        { etransitivity; [apply (f_equal rv (map_nth (fun u => fin u) Y [] (parent P fit i)))|apply rv_fin]. }
        assert (HYr : map rv (map (fun u => fin u) Y) = Y).
        { rewrite map_map. erewrite map_ext; [apply map_id|]. intros u. apply rv_fin. }
        assert (HG : forall a b c, a = Y -> b = nth (parent P fit i) Y [] -> c = r -> Draw a b c j)
          by (intros ? ? ? -> -> ->; apply Hc, Hj).
        exact (HG _ _ _ HYr Hpk Hxi).
  Qed.

  Lemma NC_scaled x : NC x -> scaled rows (un x) = rv x.
  Proof.
    intros Hx. destruct (fins_of rows Hpr [x]) as (Y & HY & HU); [repeat constructor; assumption|].
    destruct Y as [|a [|b Y]]; try discriminate. injection HY as ->.
    inversion HU as [|? ? [Ha _] _]; subst. rewrite scaled_un by assumption. rewrite rv_fin. reflexivity.
  Qed.
  Lemma mods_scaled (Xall : list (list er)) (fit : list er) : Forall NC Xall -> length fit = length Xall ->
    map (fun e => scaled rows (fst e)) (mods rows Xall fit) = map rv Xall.
  Proof.
    intros HC. unfold mods. revert fit. induction HC as [|x X Hx HC IH]; intros [|f fit] Hl; try discriminate; [reflexivity|].
    cbn [map combine fst]. rewrite IH by (cbn in Hl; lia). f_equal. apply NC_scaled, Hx.
  Qed.

  Lemma explored_wk P Xall fit t : (na_nr P <= na_p P)%nat -> (0 < na_p P)%nat ->
    Explored (na_p P) un (WR P) Xall fit t -> Forall NC Xall -> length fit = length Xall ->
    Walked rows (na_p P) (na_nr P) (mods rows Xall fit) t.
  Proof.
    intros Hnr Hp0 H. induction H as [X f l Hl Hf HP'|Xall fit t X f l HX IH Hl Hf HR HP']; intros HC Hlen.
    - apply Wk_init; [|exact HP']. etransitivity; [apply (mods_len rows X f Hlen)|exact Hf].
    - apply Forall_app in HC. destruct HC as [HCX HCall].
      assert (Hlen1 : length f = length X) by exact (eq_trans Hf (eq_sym Hl)).
      assert (Hlen' : length fit = length Xall).
      { rewrite !app_length in Hlen. change (@T (@num_arith ENum)) with er in *. elia. }
      assert (Hge : (na_p P <= length fit)%nat).
      { rewrite Hlen'. clear - HX. induction HX; [exact (Nat.eq_le_incl _ _ (eq_sym H))|].
        rewrite app_length. elia. }
      refine (eq_ind_r (fun h => Walked rows _ _ h _) _ (mods_app rows X f Xall fit Hlen1)).
      assert (Hcl : length (mods rows X f) = na_p P) by (etransitivity; [apply (mods_len rows X f Hlen1)|exact Hf]).
      apply Wk_step; [apply IH; assumption|exact Hcl| |exact HP'].
      exists (firstn (na_nr P) (e_argsort fit)). split.
      + apply (elite_of HE); [|exact Hlen']. elia.
      + intros i j Hi Hj. rewrite Hcl in Hi.
        fold (parent P fit i). set (k := parent P fit i).
        assert (Hk : (k < length fit)%nat) by (apply (parent_lt HE); elia).
        assert (E1 : pt (mods rows X f) i = un (nth i X [])) by (apply (mods_pt rows X f i Hlen1); elia).
        assert (E2 : pt (mods rows Xall fit) k = un (nth k Xall [])) by exact (mods_pt rows Xall fit k Hlen' Hk).
        assert (HNi : NC (nth i X [])) by (rewrite Forall_forall in HCX; apply HCX, nth_In; elia).
        assert (HNk : NC (nth k Xall [])) by (rewrite Forall_forall in HCall; apply HCall, nth_In; elia).
        assert (HG : forall a b c, a = map rv Xall -> b = rv (nth k Xall []) -> c = rv (nth i X []) -> Draw a b c j)
          by (intros ? ? ? -> -> ->; apply HR; [exact Hi|exact Hj]).
        apply HG; [apply mods_scaled; assumption| |].
        * etransitivity; [exact (f_equal (scaled rows) E2)|]. apply NC_scaled, HNk.
        * etransitivity; [exact (f_equal (scaled rows) E1)|]. apply NC_scaled, HNi.
  Qed.

  Theorem C72_walks w a0 res st' : exec (na_minimize A) w a0 = (inl res, st') ->
    exists p nr h,
      Z.of_nat p = a_popsize (naa A) /\ (1 <= nr <= p)%nat /\
      (exists q, naa_nrperc A = Fin q /\ INR nr <= Rmax 1 (q * INR p) < INR nr + 1) /\
      Forall (fun e => FBox rows (fst e)) h /\ Walked rows p nr h (evals (tr st')).
  Proof.
    intros Hx.
    assert (HW := na_explores A NC WR).
    match type of HW with ?H1 -> _ => assert (G1 : H1) end.
    { intros mode Hm. split; [apply EnvOK_mode, HE|]. exact (kind_not_mpi _ _ _ _ HB Hm). }
    specialize (HW G1). clear G1.
    match type of HW with ?H1 -> _ => assert (G1 : H1) end.
    { intros P HP Xall fit Hl Hp HC. pose proof (npo_p2 _ _ HP) as Hp2. eapply quiet_safe.
      - apply (NAGood_any P Xall fit Hl); [intros ->; cbn in Hp; lia|apply Forall_any].
      - apply safe_mutation_walks; auto. elia. }
    specialize (HW G1). clear G1.
    match type of HW with ?H1 -> _ => assert (G1 : H1) end.
    { intros rows' Hr HA. rewrite Hb in Hr. injection Hr as <-. apply init_cells; assumption. }
    specialize (HW G1 w a0). clear G1.
    destruct (wp_elim _ _ _ _ _ _ HW Hx) as (P & Xall & fit & [HP Hq] & HEx & HC & Hl).
    exists (na_p P), (na_nr P), (mods rows Xall fit).
    pose proof (npo_p2 _ _ HP) as Hp2.
    destruct (npo_bounds _ _ HP) as (rows' & Hr' & Hlo & Hup). rewrite Hb in Hr'. injection Hr' as <-.
    rewrite Hlo, Hup in HEx.
    destruct (npo_nr _ _ HP) as (k & Hk & Hnr). pose proof (npo_p _ _ HP) as Hpz.
    split; [exact Hpz|].
    assert (Hnp : (1 <= na_nr P <= na_p P)%nat /\
      exists q, naa_nrperc A = Fin q /\ INR (na_nr P) <= Rmax 1 (q * INR (na_p P)) < INR (na_nr P) + 1).
    { unfold outside_open, nZ in Hq. cbn [num_arith ENum EArith nlit nltb nleb] in Hq. rewrite !Rlit_0 in Hq.
      destruct (naa_nrperc A) as [q| | |] eqn:Hqe; cbn in Hq; try discriminate.
      apply negb_false_iff, andb_true_iff in Hq. destruct Hq as [Hq0 Hq1]. rb.
      unfold nZ in Hk. cbn [num_arith ENum EArith nlit nmul ntrunc er_mul er_trunc] in Hk. rewrite Rlit_0, <- Hpz, <- INR_IZR_INZ in Hk.
      pose proof (pos_INR (na_p P)) as Hp0. assert (Hp2' : 2 <= INR (na_p P)) by (apply (le_INR 2); exact Hp2).
      assert (Hqp : 0 < q * INR (na_p P) <= INR (na_p P)) by nra.
      destruct (Rlt_dec _ 0) as [H0|_]; [lra|]. injection Hk as <-.
      unfold Rfloor in Hnr. destruct (base_Int_part (q * INR (na_p P))) as [Hf1 Hf2].
      set (k := Int_part (q * INR (na_p P))) in *.
      assert (Hk0 : (-1 < k)%Z) by (apply lt_IZR; lra).
      assert (Hkp : (k <= Z.of_nat (na_p P))%Z) by (apply le_IZR; rewrite <- INR_IZR_INZ; lra).
      assert (HI : INR (na_nr P) = IZR (Z.max 1 k)).
      { rewrite INR_IZR_INZ, Hnr, Z2Nat.id by lia. reflexivity. }
      split; [lia|]. exists q. split; [reflexivity|]. rewrite HI.
      destruct (Z.max_spec 1 k) as [[Hlt ->]|[Hle ->]].
      - assert (2 <= k)%Z by lia. assert (2 <= IZR k) by (apply IZR_le; assumption).
        rewrite Rmax_right by lra. lra.
      - assert (IZR k <= 1) by (apply IZR_le; assumption).
        unfold Rmax. destruct (Rle_dec 1 (q * INR (na_p P))); lra. }
    destruct Hnp as [Hn1 Hn2]. split; [exact Hn1|]. split; [exact Hn2|]. split.
    - apply Forall_forall. intros [x f] Hin. apply in_combine_l, in_map_iff in Hin. destruct Hin as (z & <- & Hz).
      cbn [fst]. rewrite Forall_forall in HC. apply NC_FBox; [exact Hpr|apply HC, Hz].
    - apply explored_wk; [lia|lia|exact HEx|exact HC|exact Hl].
  Qed.
End RunWalks.
