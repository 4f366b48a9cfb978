(** C55: the Neighborhood Algorithm draws its new models from the Voronoi cells of the best models
    found so far (exact arithmetic, all bounds with lower < upper). *)
From Coq Require Import Reals Lra Psatz Permutation.
From Verif Require Import Base Num NumR NumE Env Common DE NA Hoare EvalRules Gen Steps Runs Best Inst Laws Safe
  Feas Weights FeasPso FeasNa FirstPop VdReal CmaStop Explore.
Open Scope R_scope.

(** ** Squared distances of vectors of reals *)
Definition sq (x : R) : R := x * x.
Fixpoint nd2 (a b : list R) : R :=
  match a, b with x :: a, y :: b => sq (x - y) + nd2 a b | _, _ => 0 end.

Lemma nd2_upd v (a b : list R) : forall j, (j < length a)%nat -> length a = length b ->
  nd2 (upd j v a) b = nd2 a b - sq (nth j a 0 - nth j b 0) + sq (v - nth j b 0).
Proof.
  revert b. induction a as [|x a IH]; intros [|y b] j Hj Hl; cbn in *; try lia; try discriminate.
  destruct j as [|j]; cbn; [lra|]. rewrite IH by lia. lra.
Qed.
Lemma nd2_refl a : nd2 a a = 0.
Proof. induction a as [|x a IH]; cbn; [reflexivity|]. rewrite IH. unfold sq. lra. Qed.
Lemma nd2_sym a : forall b, nd2 a b = nd2 b a.
Proof. induction a as [|x a IH]; intros [|y b]; cbn; auto. rewrite IH. unfold sq. lra. Qed.
Lemma nd2_tl a b : length a = length b -> nd2 (tl a) (tl b) = nd2 a b - sq (nth 0 a 0 - nth 0 b 0).
Proof. destruct a, b; cbn; intros H; try discriminate; unfold sq; lra. Qed.

(** ** One axis *)
Lemma low_lim lim r a m : 0 <= r <= 1 -> @na_low ENum lim (Fin r) = Fin a -> In (Fin m) lim -> m <= r -> m <= a.
Proof.
  intros Hr Ha Hin Hm. unfold na_low in Ha.
  assert (Hf : In (Fin m) (filter (fun l => @nleb EArith l (Fin r)) lim)).
  { apply filter_In. split; [exact Hin|]. cbn. rb. lra. }
  change (@num_arith ENum) with EArith in *.
  destruct (filter _ lim) as [|x l] eqn:Hfl; [destruct Hf|].
  assert (Hi : In (@vmax ENum (x :: l)) (x :: l)) by (apply vmax_in; discriminate).
  assert (Hn : @isnum EArith (@vmax ENum (x :: l))).
  { rewrite <- Hfl in Hi at 2. apply filter_In in Hi. destruct Hi as [_ Hi].
    eapply le_num_l. exact Hi. }
  pose proof (@vmax_ub ENum EOrd _ Hn _ Hf) as Hub.
  destruct (@vmax ENum (x :: l)) as [M| | |]; cbn in Hub; try discriminate.
  rb. unfold pymax in Ha. cbn in Ha. destruct (Rltb M 0) eqn:HM; rb; injection Ha as <-; cbn; lra.
Qed.
Lemma high_lim lim r a m : 0 <= r <= 1 -> @na_high ENum lim (Fin r) = Fin a -> In (Fin m) lim -> r <= m -> a <= m.
Proof.
  intros Hr Ha Hin Hm. unfold na_high in Ha.
  assert (Hf : In (Fin m) (filter (fun l => @nleb EArith (Fin r) l) lim)).
  { apply filter_In. split; [exact Hin|]. cbn. rb. lra. }
  change (@num_arith ENum) with EArith in *.
  destruct (filter _ lim) as [|x l] eqn:Hfl; [destruct Hf|].
  assert (Hi : In (@vmin ENum (x :: l)) (x :: l)) by (apply vmin_in; discriminate).
  assert (Hn : @isnum EArith (@vmin ENum (x :: l))).
  { rewrite <- Hfl in Hi at 2. apply filter_In in Hi. destruct Hi as [_ Hi].
    eapply le_num_r. exact Hi. }
  pose proof (@vmin_lb ENum EOrd _ Hn _ Hf) as Hub.
  destruct (@vmin ENum (x :: l)) as [M| | |]; cbn in Hub; try discriminate.
  rb. unfold pymin in Ha. cbn in Ha. destruct (Rltb 1 M) eqn:HM; rb; injection Ha as <-; cbn; lra.
Qed.

(** The limit between two models: where both are equally far away. *)
Lemma lim_ge k u d1 d2 v : u < k -> (/ 2 * (k + u + (d1 - d2) / (k - u)) <= v <->  sq (v - k) + d1 <= sq (v - u) + d2).
Proof.
  intros H. set (t := (d1 - d2) / (k - u)).
  assert (Ht : d1 - d2 = t * (k - u)) by (unfold t; field; lra). clearbody t. unfold sq. split; intros; nra.
Qed.
Lemma lim_le k u d1 d2 v : k < u -> (v <= / 2 * (k + u + (d1 - d2) / (k - u)) <->  sq (v - k) + d1 <= sq (v - u) + d2).
Proof.
  intros H. set (t := (d1 - d2) / (k - u)).
  assert (Ht : d1 - d2 = t * (k - u)) by (unfold t; field; lra). clearbody t. unfold sq. split; intros; nra.
Qed.

Section Axis.
  Context {E : Env ENum} (HE : EnvOK) (Pe : list er -> Prop) (Pc : list (list er) -> CbState -> Prop).
  Context (d : nat) (mask : list bool) (xk : list R) (U : list (list R)).
  Context (Hmask : forall j, (j < d)%nat -> nth j mask false = true).
  Definition Unit (r : list R) : Prop := length r = d /\ Forall (fun a => 0 <= a <= 1) r.
  Context (Hk : Unit xk) (HU : Forall Unit U).

  Definition AI (j : nat) (acc : list er * er * list er) : Prop := exists r D1 D2,
    acc = (fin r, Fin D1, fin D2) /\ Unit r /\ (forall u, In u U -> nd2 r xk <= nd2 r u) /\
    (forall l, (j <= l)%nat -> nth l r 0 = nth l xk 0) /\
    ((j < d)%nat -> D1 = nd2 r xk - sq (nth j r 0 - nth j xk 0) /\
                    D2 = map (fun u => nd2 r u - sq (nth j r 0 - nth j u 0)) U).

  Lemma nth_fin j (r : list R) : nth j (fin r) (Fin 0) = Fin (nth j r 0).
  Proof. apply (map_nth Fin). Qed.

  Lemma safe_axis acc j : (j < d)%nat -> AI j acc ->
    safe Pe Pc (na_axis d mask (fin xk) (map (fun u => fin u) U) acc j) (AI (S j)).
  Proof.
    intros Hj (r & D1 & D2 & -> & Hr & Hcell & Hsame & HD). destruct (HD Hj) as [HD1 HD2]. clear HD.
    destruct Hr as [Hrl Hrb]. destruct Hk as [Hkl Hkb].
    unfold na_axis. rewrite (Hmask j Hj). cbn [negb]. cbv zeta.
    change (@n0 (@num_arith ENum)) with (Fin 0). rewrite !nth_fin.
    set (kj := nth j xk 0). set (rj := nth j r 0).
    assert (Hrk : rj = kj) by (apply Hsame; lia).
    assert (Hrj : 0 <= rj <= 1).
    { rewrite Forall_forall in Hrb. apply Hrb, nth_In. lia. }
    rewrite map_map.
    set (lim := na_lims _ _ _ _).
    destruct (na_low_ok lim rj Hrj) as (lo & Elo & Hlo). destruct (na_high_ok lim rj Hrj) as (hi & Ehi & Hhi).
    rewrite Elo, Ehi. eapply safe_bind.
    { apply safe_uniform1; [exact HE|]. apply ENum_UniformLaw. lra. }
    intros v [Hv1 Hv2]. destruct v as [v| | |]; cbn in Hv1, Hv2; try discriminate. rb.
    assert (Hlims : forall u, In u U ->
       In (er_mul (Fin (/ 2)) (er_add (er_add (Fin kj) (Fin (nth j u 0)))
             (er_div (er_sub (Fin D1) (Fin (nd2 r u - sq (rj - nth j u 0)))) (er_sub (Fin kj) (Fin (nth j u 0)))))) lim).
    { intros u Hu. unfold lim, na_lims. rewrite HD2, map_map.
      change (@nlit (@num_arith ENum) 5 (-1)) with (Fin (Rlit 5 (-1))). rewrite half_lit.
      clear - Hu. induction U as [|u' U' IH]; [destruct Hu|]. cbn [map map2].
      destruct Hu as [->|Hu]; [left|right; apply IH, Hu]. rewrite nth_fin. reflexivity. }
    assert (Hnew : forall u, In u U -> sq (v - kj) + D1 <= sq (v - nth j u 0) + (nd2 r u - sq (rj - nth j u 0))).
    { intros u Hu. specialize (Hlims u Hu). specialize (Hcell u Hu). set (uj := nth j u 0) in *.
      set (d2 := nd2 r u - sq (rj - uj)) in *.
      assert (Hc : sq (rj - kj) + D1 <= sq (rj - uj) + d2) by (unfold d2; rewrite HD1; fold rj kj; lra).
      cbn [er_sub er_add] in Hlims.
      destruct (Rtotal_order uj kj) as [Hlt|[Heq|Hgt]].
      - rewrite div_fin in Hlims by lra. cbn [er_add er_mul] in Hlims.
        apply lim_ge; [lra|]. apply lim_ge in Hc; [|lra].
        pose proof (low_lim _ _ _ _ Hrj Elo Hlims Hc). lra.
      - assert (D1 <= d2) by (rewrite Heq in *; lra). unfold sq. rewrite Heq. lra.
      - rewrite div_fin in Hlims by lra. cbn [er_add er_mul] in Hlims.
        apply lim_le; [lra|]. apply lim_le in Hc; [|lra].
        pose proof (high_lim _ _ _ _ Hrj Ehi Hlims Hc). lra. }
    set (r' := upd j v r).
    assert (Er' : @upd (@T (@num_arith ENum)) j (Fin v) (fin r) = fin r').
    { unfold r'. clear. revert j. induction r as [|x r IH]; intros [|j]; cbn; auto. rewrite IH. reflexivity. }
    assert (Hr'l : length r' = d) by (unfold r'; rewrite upd_length; exact Hrl).
    assert (Hnd : forall u, length u = d -> nd2 r' u = nd2 r u - sq (rj - nth j u 0) + sq (v - nth j u 0)).
    { intros u Hu. unfold r'. rewrite nd2_upd by lia. reflexivity. }
    assert (Hlu : forall u, In u U -> length u = d).
    { intros u Hu. rewrite Forall_forall in HU. apply HU, Hu. }
    assert (HUnit : Unit r').
    { split; [exact Hr'l|]. apply Forall_upd; [lra|exact Hrb]. }
    assert (Hcell' : forall u, In u U -> nd2 r' xk <= nd2 r' u).
    { intros u Hu. rewrite !Hnd by auto. specialize (Hnew u Hu). fold rj kj in HD1. fold kj. lra. }
    assert (Hsame' : forall l, (S j <= l)%nat -> nth l r' 0 = nth l xk 0).
    { intros l Hl. unfold r'. rewrite upd_nth_other by lia. apply Hsame. lia. }
    destruct (Nat.ltb_spec (S j) d) as [Hj'|Hj'].
    - apply safe_ret. rewrite Er', !nth_fin. unfold r' at 2 4. rewrite upd_nth_same by lia.
      exists r', (nd2 r' xk - sq (nth (S j) r' 0 - nth (S j) xk 0)),
             (map (fun u => nd2 r' u - sq (nth (S j) r' 0 - nth (S j) u 0)) U).
      split; [|split; [exact HUnit|split; [exact Hcell'|split; [exact Hsame'|intros _; split; reflexivity]]]].
      f_equal; [f_equal|].
      + unfold nsq. cbn [nsub nmul nadd EArith num_arith ENum er_sub er_mul er_add]. f_equal.
        rewrite (Hnd xk Hkl). fold kj. rewrite HD1. fold rj kj. unfold sq. ring.
      + rewrite HD2. rewrite !map_map.
        assert (HX : forall V, incl V U ->
          map2 (fun d2 u : _ => @nadd EArith d2 (@nsub EArith (@nsq EArith (@nsub EArith (nth j u (Fin 0)) (Fin v)))
                                   (@nsq EArith (@nsub EArith (nth (S j) u (Fin 0)) (Fin (nth (S j) r' 0))))))
               (map (fun x => Fin (nd2 r x - sq (nth j r 0 - nth j x 0))) V) (map (fun u => fin u) V)
          = map (fun x => Fin (nd2 r' x - sq (nth (S j) r' 0 - nth (S j) x 0))) V).
        { induction V as [|u V IH]; intros Hin; [reflexivity|]. cbn [map map2]. rewrite IH by (intros y Hy; apply Hin; right; exact Hy).
          f_equal. rewrite !nth_fin. unfold nsq. cbn [nsub nmul nadd EArith er_sub er_mul er_add]. f_equal.
          rewrite (Hnd u) by (apply Hlu, Hin; left; reflexivity). fold rj. unfold sq. ring. }
        apply HX. apply incl_refl.
    - apply safe_ret. rewrite Er'. exists r', D1, D2.
      split; [reflexivity|]. split; [exact HUnit|]. split; [exact Hcell'|]. split; [exact Hsame'|]. lia.
  Qed.

  Lemma safe_fold_seq {A} (f : A -> nat -> M A) (J : nat -> A -> Prop) n : forall s a, J s a ->
    (forall j a, (s <= j < s + n)%nat -> J j a -> safe Pe Pc (f a j) (J (S j))) ->
    safe Pe Pc (foldM f a (seq s n)) (J (s + n)%nat).
  Proof.
    induction n as [|n IH]; intros s a Ha H; cbn.
    - apply safe_ret. rewrite Nat.add_0_r. exact Ha.
    - eapply safe_bind; [apply H; [lia|exact Ha]|]. intros a' Ha'.
      rewrite <- Nat.add_succ_comm. apply IH; [exact Ha'|]. intros j b Hj Hb. apply H; [lia|exact Hb].
  Qed.

  Lemma safe_cell :
    safe Pe Pc (foldM (na_axis d mask (fin xk) (map (fun u => fin u) U))
                  (fin xk, Fin 0, map (fun u => @vsum EArith (map (@nsq EArith) (@vsub EArith (tl u) (tl (fin xk))))) (map (fun u => fin u) U))
                  (seq 0 d))
      (fun acc => exists r, fst (fst acc) = fin r /\ Unit r /\ forall u, In u U -> nd2 r xk <= nd2 r u).
  Proof.
    eapply safe_conseq.
    - apply (safe_fold_seq _ AI).
      + exists xk, 0, (map (fun u => nd2 xk u - sq (nth 0 xk 0 - nth 0 u 0)) U).
        split; [|split; [exact Hk|split; [|split; [reflexivity|intros _; split; [|reflexivity]]]]].
        * f_equal. rewrite !map_map. apply map_ext_in. intros u Hu.
          assert (Hl : length u = length xk).
          { rewrite Forall_forall in HU. rewrite (proj1 (HU u Hu)). symmetry. apply Hk. }
          assert (Et : forall l : list R, tl (fin l) = fin (tl l)) by (intros []; reflexivity).
          rewrite !Et. unfold vsub. rewrite (map2_fin _ Rminus) by reflexivity.
          rewrite (map_fin _ sq) by reflexivity. rewrite vsum_fin. f_equal.
          rewrite nd2_sym. rewrite <- (Ropp_involutive (sq _)).
          replace (- - sq (nth 0 xk 0 - nth 0 u 0)) with (sq (nth 0 u 0 - nth 0 xk 0)) by (unfold sq; ring).
          rewrite <- nd2_tl by exact Hl.
          generalize (tl u) as a, (tl xk) as b. induction a as [|x a IH]; intros [|y b]; cbn; auto. rewrite IH. reflexivity.
        * intros u _. rewrite nd2_refl.
          assert (Hp : forall a b, 0 <= nd2 a b).
          { induction a as [|x a IH]; intros [|y b]; cbn; try lra. specialize (IH b). pose proof (Rle_0_sqr (x - y)). unfold sq, Rsqr in *. lra. }
          apply Hp.
        * rewrite nd2_refl. unfold sq. ring.
      + intros j a Hj Ha. apply safe_axis; [lia|exact Ha].
    - intros acc (r & D1 & D2 & -> & Hr & Hc & _). exists r. auto.
  Qed.
End Axis.

(** ** Specification *)
Definition real (v : er) : R := match v with Fin r => r | _ => 0 end.

(** The point [x] with the box of [rows] scaled to the unit cube, and squared Euclidean distances
    there. *)
Definition scaled (rows : list (list er)) (x : list er) : list R :=
  map2 (fun row v => (real v - real (nth 0 row (Fin 0))) / (real (nth 1 row (Fin 0)) - real (nth 0 row (Fin 0)))) rows x.
Definition sdist (rows : list (list er)) (x y : list er) : R := nd2 (scaled rows x) (scaled rows y).

Definition proper (rows : list (list er)) : Prop :=
  Forall (fun row => exists l u, row = [Fin l; Fin u] /\ l < u) rows.

(** Evaluated models: the point and its value. *)
Notation models := (list (list er * er)).
Definition pt (h : models) (k : nat) : list er := fst (nth k h ([], NaN)).
Definition val (h : models) (k : nat) : er := snd (nth k h ([], NaN)).

(** [ix] lists [nr] different models of [h], the best first; when all values are numbers, none of the
    others is better. *)
Record Elite (nr : nat) (h : models) (ix : list nat) : Prop := {
  el_len : length ix = nr; el_in : forall k, In k ix -> (k < length h)%nat; el_nodup : NoDup ix;
  el_best : Forall (fun e => snd e <> NaN) h ->
    (forall a b, (a < b < nr)%nat -> er_leb (val h (nth a ix 0%nat)) (val h (nth b ix 0%nat)) = true) /\
    (forall a b, In a ix -> (b < length h)%nat -> ~ In b ix -> er_leb (val h a) (val h b) = true) }.

(** The i-th model of the generation [l] lies in the Voronoi cell of the (i mod nr)-th best model:
    no model of [h] is closer. *)
Definition Resampled (rows : list (list er)) (nr : nat) (h l : models) : Prop :=
  exists ix, Elite nr h ix /\
  forall i u, (i < length l)%nat -> In u h ->
    sdist rows (pt l i) (pt h (nth (i mod nr) ix 0%nat)) <= sdist rows (pt l i) (fst u).

(** [t]: all evaluations, in the order they are made; [h]: the models, latest generation first.  Within
    a generation a pool of workers may evaluate in any order. *)
Inductive Neighbourhood (rows : list (list er)) (p nr : nat) : models -> models -> Prop :=
| Nb_init l t : length l = p -> Permutation t l -> Neighbourhood rows p nr l t
| Nb_step h t l t' : Neighbourhood rows p nr h t -> length l = p -> Resampled rows nr h l ->
    Permutation t' l -> Neighbourhood rows p nr (l ++ h) (t ++ t').

(** ** Proof *)
Definition rv : list er -> list R := map real.
Lemma rv_fin r : rv (fin r) = r.
Proof. unfold rv. rewrite map_map. apply map_id. Qed.

Lemma NBox_unit lower upper x : Forall (fun b => exists l u, b = (Fin l, Fin u) /\ l < u) (combine lower upper) ->
  NBox lower upper x <-> exists r, x = fin r /\ Unit (length (combine lower upper)) r.
Proof.
  intros H. revert x.
  cut (forall bs : list (er * er), Forall (fun b => exists l u, b = (Fin l, Fin u) /\ l < u) bs ->
         forall x : list er, Forall2 Nin bs x <-> exists r, x = fin r /\ Unit (length bs) r).
  { intros HH x. exact (HH (combine lower upper) H x). }
  clear. intros bs H. induction H as [|b bs (l & u & -> & Hlu) H IH]; intros x.
  - split.
    + intros Hx. inversion Hx; subst. exists []. split; [reflexivity|]. split; [reflexivity|constructor].
    + intros (r & -> & Hr & _). destruct r; [constructor|discriminate].
  - split.
    + intros Hx. inversion Hx as [|? v ? x' Hv Hx']; subst. apply IH in Hx'. destruct Hx' as (r & -> & Hr1 & Hr2).
      destruct (Hv Hlu) as (a & -> & Ha). exists (a :: r). split; [reflexivity|]. split; [cbn; lia|].
      constructor; assumption.
    + intros (r & -> & Hr1 & Hr2). destruct r as [|a r]; [discriminate|]. inversion Hr2; subst. cbn [map].
      constructor; [intros _; exists a; auto|]. apply IH. exists r. split; [reflexivity|]. split; [cbn in Hr1; lia|assumption].
Qed.

Lemma scaled_un rows r : proper rows -> length r = length rows ->
  scaled rows (@unnormalize ENum (lows rows) (ups rows) (fin r)) = r.
Proof.
  intros H. unfold scaled, unnormalize, lows, ups. revert r.
  induction H as [|row rows (l & u & -> & Hlu) H IH]; intros [|a r] Hl; try discriminate; [reflexivity|].
  cbn [map map3 map2 nth]. rewrite IH by (cbn in Hl; lia). f_equal.
  cbn. replace (Rlit 0 0) with 0 by (symmetry; apply Rlit_0). 
  destruct (Rltb 0 (u - l)) eqn:Hc; rb; [|lra]. cbn. field. lra.
Qed.

Lemma proper_finite rows : proper rows -> FiniteBox rows.
Proof. intros H. eapply Forall_impl; [|exact H]. intros row (l & u & -> & Hlu). exists l, u. split; [reflexivity|lra]. Qed.
Lemma proper_combine rows : proper rows ->
  Forall (fun b => exists l u, b = (Fin l, Fin u) /\ l < u) (combine (@lows EArith rows) (@ups EArith rows)).
Proof.
  intros H. unfold lows, ups. induction H as [|row rows (l & u & -> & Hlu) H IH]; cbn; constructor; [|exact IH].
  exists l, u. auto.
Qed.
Lemma proper_mask rows j : proper rows -> (j < length rows)%nat ->
  nth j (@span_mask ENum (@lows EArith rows) (@ups EArith rows)) false = true.
Proof.
  intros H. unfold lows, ups, span_mask. revert j.
  induction H as [|row rows (l & u & -> & Hlu) H IH]; intros j Hj; cbn in Hj; [lia|].
  destruct j as [|j]; [|apply IH; lia]. cbn. rb. unfold Rlit in *. cbn. lra.
Qed.

Lemma del_rest {A} (l : list A) x0 : forall k u, In u l -> u = nth k l x0 \/ In u (del k l).
Proof.
  induction l as [|a l IH]; intros k u Hu; [destruct Hu|].
  destruct k as [|k]; cbn; destruct Hu as [->|Hu]; auto. destruct (IH k u Hu); auto.
Qed.

Lemma F2_nth {A B} (Q : A -> B -> Prop) l X (HF : Forall2 Q l X) a b : forall i, (i < length l)%nat -> Q (nth i l a) (nth i X b).
Proof. induction HF; intros [|i] Hi; cbn in *; try lia; auto. apply IHHF. lia. Qed.

Lemma NoDup_front {A} (l l' : list A) : NoDup (l ++ l') -> NoDup l.
Proof.
  induction l as [|a l IH]; cbn; intros H; [constructor|]. inversion H as [|? ? H1 H2]; subst. constructor; [|apply IH, H2].
  intros Ha. apply H1, in_or_app. left; exact Ha.
Qed.

Section RunCells.
  Context {E : Env ENum} (HE : EnvOK).
  Context (A : @NAArgs ENum) (rows : list (list er)).
  Context (Hb : a_bounds (naa A) = D2 2 rows) (Hpr : proper rows).
  Context (HB : a_backend (naa A) <> Some "mpi"%string).
  Context (Hx0 : forall x, a_x0 (naa A) = Some x -> Forall (FBox rows) (nd_rows x)).

  Definition NC : list er -> Prop := NBox (@lows EArith rows) (@ups EArith rows).
  Definition parent (P : @NAParams ENum) (fit : list er) (i : nat) : nat :=
    nth (i mod na_nr P) (firstn (na_nr P) (e_argsort fit)) 0%nat.
  Definition CR (P : @NAParams ENum) (Xall : list (list er)) (fit : list er) (X : list (list er)) : Prop :=
    forall i u, (i < na_p P)%nat -> In u Xall ->
      nd2 (rv (nth i X [])) (rv (nth (parent P fit i) Xall [])) <= nd2 (rv (nth i X [])) (rv u).

  Lemma fins_of (Xall : list (list er)) : Forall NC Xall ->
    exists Y, Xall = map (fun u => fin u) Y /\ Forall (Unit (length rows)) Y.
  Proof.
    assert (Hl : length (combine (@lows EArith rows) (@ups EArith rows)) = length rows).
    { rewrite combine_length. unfold lows, ups. rewrite !map_length. apply Nat.min_id. }
    induction 1 as [|x X Hx HX (Y & -> & HY)]; [exists []; auto|].
    apply NBox_unit in Hx; [|apply proper_combine, Hpr]. destruct Hx as (r & -> & Hr).
    assert (Hr' : Unit (length rows) r) by (rewrite <- Hl; exact Hr). exists (r :: Y). split; [reflexivity|]. constructor; assumption.
  Qed.
  Lemma NC_fin r : Unit (length rows) r -> NC (fin r).
  Proof.
    intros Hr. apply NBox_unit; [apply proper_combine, Hpr|]. exists r. split; [reflexivity|].
    replace (length (combine _ _)) with (length rows); [exact Hr|].
    unfold lows, ups. rewrite combine_length, !map_length. symmetry. apply Nat.min_id.
  Qed.

  Lemma argsort_lt (fit : list er) k : In k (e_argsort fit) -> (k < length fit)%nat.
  Proof.
    intros H. apply (Permutation_in _ (proj1 (eo_argsort HE) fit)), in_seq in H. change (@T (@num_arith ENum)) with er in *. lia.
  Qed.
  Lemma parent_lt P fit i : (0 < length fit)%nat -> (parent P fit i < length fit)%nat.
  Proof.
    intros H0. unfold parent. set (ix := firstn _ _).
    destruct (Nat.lt_ge_cases (i mod na_nr P) (length ix)) as [Hi|Hi]; [|rewrite nth_overflow by exact Hi; exact H0].
    apply argsort_lt. rewrite <- (firstn_skipn (na_nr P) (@e_argsort ENum E fit)). apply in_or_app. left. apply nth_In, Hi.
  Qed.

  Lemma safe_mutation_cells Pe Pc P Xall fit : NAParamsOf A P ->
    length fit = length Xall -> (0 < length Xall)%nat -> Forall NC Xall ->
    safe Pe Pc (na_mutation P Xall fit) (fun X => length X = na_p P /\ Forall NC X /\ CR P Xall fit X).
  Proof.
    intros HP Hl H0 HX. destruct (fins_of Xall HX) as (Y & -> & HY).
    destruct (npo_bounds _ _ HP) as (rows' & Hr' & Hlo & Hup). rewrite Hb in Hr'. injection Hr' as <-.
    pose proof (npo_d _ _ HP) as Hd. rewrite Hb in Hd. cbn [nd_len] in Hd.
    unfold na_mutation. cbv zeta. rewrite Hlo, Hup. eapply safe_conseq.
    - apply (safe_mapM _ _ _ _ (fun i x => exists r, x = fin r /\ Unit (length rows) r /\
         forall u, In u Y -> nd2 r (nth (parent P fit i) Y []) <= nd2 r u)).
      intros i _. unfold na_one. cbv zeta. fold (parent P fit i). rewrite Hd.
      set (k := parent P fit i).
      assert (Hk : (k < length Y)%nat).
      { unfold k. rewrite map_length in Hl, H0. change (@T (@num_arith ENum)) with er in *. rewrite <- Hl. apply parent_lt. lia. }
      clearbody k.
      assert (Enth : @nth (@vec (@num_arith ENum)) k (map (fun u => fin u) Y) [] = fin (nth k Y []))
        by exact (map_nth (fun u => fin u) Y [] k).
      rewrite Enth.
      assert (Edel : @del (@vec (@num_arith ENum)) k (map (fun u => fin u) Y) = map (fun u => fin u) (del k Y)).
      { clear. revert k. induction Y as [|y Y IH]; intros [|k]; cbn; auto. rewrite IH. reflexivity. }
      rewrite Edel. eapply safe_bind.
      + apply (safe_cell HE Pe Pc (length rows) _ (nth k Y []) (del k Y)).
        * intros j Hj. apply proper_mask; assumption.
        * rewrite Forall_forall in HY. apply HY, nth_In, Hk.
        * apply Forall_forall. intros u Hu. rewrite Forall_forall in HY. apply HY. eapply del_In, Hu.
      + intros [[x d1] d2] (r & Hx & Hr & Hc). cbn [fst] in *. apply safe_ret. exists r.
        split; [exact Hx|]. split; [exact Hr|]. intros u Hu.
        destruct (del_rest Y [] k u Hu) as [->|Hu']; [lra|apply Hc, Hu'].
    - intros X HF. assert (HXl : length X = na_p P).
      { apply Forall2_length in HF. rewrite seq_length in HF. symmetry. exact HF. }
      split; [exact HXl|]. split.
      + clear - HF Hpr. induction HF as [|? ? ? ? (r & -> & Hr & _)]; constructor; [apply NC_fin, Hr|assumption].
      + intros i u Hi Hu. apply in_map_iff in Hu. destruct Hu as (y & <- & Hy).
        assert (Hn : nth i (seq 0 (na_p P)) 0%nat = i) by (rewrite seq_nth; lia).
        assert (HFi : exists r, nth i X [] = fin r /\ Unit (length rows) r /\
         forall u, In u Y -> nd2 r (nth (parent P fit i) Y []) <= nd2 r u).
        { pose proof (F2_nth _ _ _ HF 0%nat [] i) as HH. cbv beta in HH. rewrite Hn in HH. apply HH. rewrite seq_length. exact Hi. }
        destruct HFi as (r & HXi & Hr & Hc).
        assert (Hxi : rv (nth i X []) = r) by (etransitivity; [apply (f_equal rv HXi)|apply rv_fin]).
        assert (Hpk : rv (nth (parent P fit i) (map (fun u => fin u) Y) []) = nth (parent P fit i) Y []).
        { etransitivity; [apply (f_equal rv (map_nth (fun u => fin u) Y [] (parent P fit i)))|apply rv_fin]. }
        assert (Hyr : rv (fin y) = y) by apply rv_fin.
        assert (HG : forall a b c, a = r -> b = nth (parent P fit i) Y [] -> c = y -> nd2 a b <= nd2 a c)
          by (intros ? ? ? -> -> ->; apply Hc, Hy).
        exact (HG _ _ _ Hxi Hpk Hyr).
  Qed.

  Lemma quiet_safe {B} (m : M B) (Q1 Q2 : B -> Prop) : quiet m Q1 -> safe (fun _ => True) (fun _ _ => True) m Q2 -> quiet m Q2.
  Proof.
    intros H1 H2 s. specialize (H1 s). destruct (H2 s) as (evs & _ & _ & HQ). unfold wp in *.
    destruct (m s) as [[b|e] s']; [|exact H1]. destruct H1 as (A1 & A2 & _). cbn in HQ. auto.
  Qed.

  Lemma init_cells : PopArgsOK (naa A) ->
    quiet (match a_x0 (naa A) with
           | Some x => ret (nd_rows x)
           | None => lhs (Z.to_nat (a_popsize (naa A))) (nd_len (a_bounds (naa A))) (@lows EArith rows) (@ups EArith rows)
           end)
      (fun X => length X = Z.to_nat (a_popsize (naa A)) /\
                Forall (fun r => NC (@normalize ENum (@lows EArith rows) (@ups EArith rows) r)) X).
  Proof.
    intros HA. eapply quiet_safe.
    - destruct (a_x0 (naa A)); [apply (quiet_ret _ (fun _ => True)); exact I|].
      eapply quiet_conseq; [apply lhs_any|]. intros; exact I.
    - pose proof (pao_pop _ HA) as Hp.
      assert (HI : InitIs (naa A) rows (fun x : list er => Forall2 Cin (combine (@lows EArith rows) (@ups EArith rows)) x) Cin).
      { unfold InitIs. destruct (a_x0 (naa A)) as [x|] eqn:Hx.
        - specialize (Hx0 x eq_refl). eapply Forall_impl; [|exact Hx0]. intros y Hy. apply FBox_iff; [apply proper_finite, Hpr|exact Hy].
        - split; [|auto]. eapply Forall_impl; [|exact (proper_finite _ Hpr)]. intros r (l & u & -> & Hlu). cbn.
          apply ENum_LhsLaw; [lia|exact Hlu]. }
      eapply safe_conseq; [apply (safe_init HE _ _ _ rows _ Cin Hb HI HA)|].
      intros X [H1 H2]. split; [exact H1|]. eapply Forall_impl; [|exact H2]. intros x Hx.
      apply normalize_N; [apply FiniteBox_combine, proper_finite, Hpr|unfold lows, ups; rewrite !map_length; reflexivity|exact Hx].
  Qed.

  Notation un := (@unnormalize ENum (@lows EArith rows) (@ups EArith rows)).

  Definition mods (Xall : list (list er)) (fit : list er) : models :=
    combine (map (un : list er -> list er) Xall) fit.
  Lemma mods_len Xall fit : length fit = length Xall -> length (mods Xall fit) = length fit.
  Proof. intros H. unfold mods. rewrite combine_length, map_length, H. apply Nat.min_id. Qed.
  Lemma mods_val Xall fit k : length fit = length Xall -> (k < length fit)%nat -> val (mods Xall fit) k = nth k fit (Fin 0).
  Proof.
    intros H Hk. unfold val, mods. rewrite combine_nth by (rewrite map_length; auto). apply nth_indep, Hk.
  Qed.
  Lemma mods_pt Xall fit k : length fit = length Xall -> (k < length fit)%nat -> pt (mods Xall fit) k = un (nth k Xall []).
  Proof.
    intros H Hk. unfold pt, mods. rewrite combine_nth by (rewrite map_length; auto). cbn [fst].
    rewrite nth_indep with (d' := un []) by (rewrite map_length, <- H; exact Hk). apply (map_nth un).
  Qed.
  Lemma mods_app X f Xall fit : length f = length X -> mods (X ++ Xall) (f ++ fit) = mods X f ++ mods Xall fit.
  Proof.
    unfold mods. rewrite map_app. revert f. induction X as [|x X IH]; intros [|y f] H; try discriminate; [reflexivity|].
    cbn [map app combine]. rewrite IH by (cbn in H; lia). reflexivity.
  Qed.

  Lemma elite_of nr (Xall : list (list er)) (fit : list er) : (nr <= length fit)%nat -> length fit = length Xall ->
    Elite nr (mods Xall fit) (firstn nr (e_argsort fit)).
  Proof.
    intros Hnr Hl. destruct (eo_argsort HE) as [HAp HAs]. specialize (HAp fit).
    assert (Hal : length (e_argsort fit) = length fit).
    { rewrite (Permutation_length HAp), seq_length. reflexivity. }
    assert (Hnd : NoDup (e_argsort fit)).
    { eapply Permutation_NoDup; [symmetry; exact HAp|apply seq_NoDup]. }
    pose proof (mods_len Xall fit Hl) as Hcl. pose proof (fun k => mods_val Xall fit k Hl) as Hv.
    assert (Hlt : forall k, In k (e_argsort fit) -> (k < length fit)%nat) by (intros k; apply argsort_lt).
    assert (Hfn : forall k, In k (firstn nr (e_argsort fit)) -> In k (e_argsort fit)).
    { intros k Hk. rewrite <- (firstn_skipn nr (@e_argsort ENum E fit)). apply in_or_app. left. exact Hk. }
    assert (Hfl : length (firstn nr (e_argsort fit)) = nr).
    { rewrite firstn_length, Hal. apply Nat.min_l. exact Hnr. }
    assert (Hnn : forall a, (a < nr)%nat -> nth a (firstn nr (e_argsort fit)) 0%nat = nth a (e_argsort fit) 0%nat).
    { intros a Ha. rewrite <- (firstn_skipn nr (@e_argsort ENum E fit)) at 2. rewrite app_nth1; [reflexivity|]. rewrite Hfl. exact Ha. }
    constructor.
    - exact Hfl.
    - intros k Hk. apply Hfn, Hlt in Hk. rewrite Hcl. exact Hk.
    - rewrite <- (firstn_skipn nr (@e_argsort ENum E fit)) in Hnd. exact (NoDup_front _ _ Hnd).
    - intros Hnum.
      assert (Hnum' : Forall (@isnum EArith) fit).
      { apply Forall_forall. intros f Hf. destruct (In_nth _ _ (Fin 0) Hf) as (k & Hk & <-).
        rewrite <- Hv by exact Hk. rewrite Forall_forall in Hnum.
        assert (Hx : val (mods Xall fit) k <> NaN).
        { apply Hnum, nth_In. rewrite Hcl. exact Hk. }
        unfold isnum. destruct (val _ k); cbn; try reflexivity; try congruence. rb. lra. }
      assert (Hso : forall a b, (a < b)%nat -> (b < length fit)%nat ->
         er_leb (val (mods Xall fit) (nth a (e_argsort fit) 0%nat))
                (val (mods Xall fit) (nth b (e_argsort fit) 0%nat)) = true).
      { intros a b Hab Hbl. rewrite !Hv by (apply Hlt, nth_In; rewrite Hal; change (@T (@num_arith ENum)) with er in *; lia).
        exact (HAs fit Hnum' a b Hab Hbl). }
      split.
      + intros a b [Hab Hbn]. rewrite !Hnn by lia. apply Hso; [exact Hab|]. eapply Nat.lt_le_trans; [exact Hbn|exact Hnr].
      + intros a b Ha Hbl Hbn. rewrite Hcl in Hbl.
        destruct (In_nth _ _ 0%nat Ha) as (ka & Hka & <-). rewrite Hfl in Hka.
        assert (Hbi : In b (e_argsort fit)).
        { apply (Permutation_in _ (Permutation_sym HAp)), in_seq. split; [lia|exact Hbl]. }
        destruct (In_nth _ _ 0%nat Hbi) as (kb & Hkb & <-). rewrite Hnn by exact Hka. rewrite Hal in Hkb.
        apply Hso; [|exact Hkb]. destruct (Nat.lt_ge_cases kb nr) as [Hlt'|]; [|lia].
        exfalso. apply Hbn. rewrite <- Hnn by exact Hlt'. apply nth_In. rewrite Hfl. exact Hlt'.
  Qed.

  Lemma NC_FBox x : NC x -> FBox rows (un x).
  Proof.
    intros Hx. apply FBox_iff; [apply proper_finite, Hpr|].
    apply unnormalize_C; [apply FiniteBox_combine, proper_finite, Hpr|unfold lows, ups; rewrite !map_length; reflexivity|exact Hx].
  Qed.

  Lemma NC_sdist x y : NC x -> NC y -> sdist rows (un x) (un y) = nd2 (rv x) (rv y).
  Proof.
    intros Hx Hy. destruct (fins_of [x; y]) as (Y & HY & HU); [repeat constructor; assumption|].
    destruct Y as [|a [|b [|c Y]]]; try discriminate. injection HY as -> ->.
    inversion HU as [|? ? [Ha _] HU']; subst. inversion HU' as [|? ? [Hb' _] _]; subst.
    unfold sdist. rewrite !scaled_un by assumption. rewrite !rv_fin. reflexivity.
  Qed.

  Lemma explored_nb P Xall fit t : (na_nr P <= na_p P)%nat -> (0 < na_p P)%nat ->
    Explored (na_p P) un (CR P) Xall fit t -> Forall NC Xall -> length fit = length Xall ->
    Neighbourhood rows (na_p P) (na_nr P) (mods Xall fit) t.
  Proof.
    intros Hnr Hp0 H. induction H as [X f l Hl Hf HP'|Xall fit t X f l HX IH Hl Hf HR HP']; intros HC Hlen.
    - apply Nb_init; [|exact HP']. etransitivity; [apply (mods_len X f Hlen)|exact Hf].
    - apply Forall_app in HC. destruct HC as [HCX HCall].
      assert (Hlen1 : length f = length X) by exact (eq_trans Hf (eq_sym Hl)).
      assert (Hlen' : length fit = length Xall).
      { rewrite !app_length in Hlen. change (@T (@num_arith ENum)) with er in *. elia. }
      assert (Hge : (na_p P <= length fit)%nat).
      { rewrite Hlen'. clear - HX. induction HX; [exact (Nat.eq_le_incl _ _ (eq_sym H))|].
        rewrite app_length. elia. }
      refine (eq_ind_r (fun h => Neighbourhood rows _ _ h _) _ (mods_app X f Xall fit Hlen1)).
      assert (Hcl : length (mods X f) = na_p P) by (etransitivity; [apply (mods_len X f Hlen1)|exact Hf]).
      apply Nb_step; [apply IH; assumption|exact Hcl| |exact HP'].
      exists (firstn (na_nr P) (e_argsort fit)). split.
      + apply elite_of; [|exact Hlen']. elia.
      + intros i u Hi Hu. rewrite Hcl in Hi.
        fold (parent P fit i). set (k := parent P fit i).
        assert (Hk : (k < length fit)%nat) by (apply parent_lt; elia).
        rewrite (mods_pt X f i Hlen1) by elia. rewrite (mods_pt Xall fit k Hlen' Hk).
        destruct u as [u fu]. apply in_combine_l, in_map_iff in Hu. destruct Hu as (z & <- & Hz). cbn [fst].
        assert (HNi : NC (nth i X [])) by (rewrite Forall_forall in HCX; apply HCX, nth_In; elia).
        rewrite Forall_forall in HCall.
        assert (HNk : NC (nth k Xall [])) by (apply HCall, nth_In; elia).
        assert (HNz : NC z) by (apply HCall, Hz).
        refine (Rle_trans _ _ _ (Req_le _ _ (NC_sdist _ _ HNi HNk)) _).
        refine (Rle_trans _ _ _ _ (Req_le _ _ (eq_sym (NC_sdist _ _ HNi HNz)))).
        exact (HR i z Hi Hz).
  Qed.

  Theorem C55_na w a0 res st' : exec (na_minimize A) w a0 = (inl res, st') ->
    exists p nr h,
      Z.of_nat p = a_popsize (naa A) /\ (1 <= nr <= p)%nat /\
      (exists q, naa_nrperc A = Fin q /\ INR nr <= Rmax 1 (q * INR p) < INR nr + 1) /\
      Forall (fun e => FBox rows (fst e)) h /\ Neighbourhood rows p nr h (evals (tr st')).
  Proof.
    intros Hx.
    assert (HW := na_explores A NC CR).
    match type of HW with ?H1 -> _ => assert (G1 : H1) end.
    { intros mode Hm. split; [apply EnvOK_mode, HE|]. exact (kind_not_mpi _ _ _ _ HB Hm). }
    specialize (HW G1). clear G1.
    match type of HW with ?H1 -> _ => assert (G1 : H1) end.
    { intros P HP Xall fit Hl Hp HC. pose proof (npo_p2 _ _ HP) as Hp2. eapply quiet_safe.
      - apply (NAGood_any P Xall fit Hl); [intros ->; cbn in Hp; lia|apply Forall_any].
      - apply safe_mutation_cells; auto. elia. }
    specialize (HW G1). clear G1.
    match type of HW with ?H1 -> _ => assert (G1 : H1) end.
    { intros rows' Hr HA. rewrite Hb in Hr. injection Hr as <-. apply init_cells, HA. }
    specialize (HW G1 w a0). clear G1.
    destruct (wp_elim _ _ _ _ _ _ HW Hx) as (P & Xall & fit & [HP Hq] & HEx & HC & Hl).
    exists (na_p P), (na_nr P), (mods Xall fit).
    pose proof (npo_p2 _ _ HP) as Hp2.
    destruct (npo_bounds _ _ HP) as (rows' & Hr' & Hlo & Hup). rewrite Hb in Hr'. injection Hr' as <-.
    rewrite Hlo, Hup in HEx.
    destruct (npo_nr _ _ HP) as (k & Hk & Hnr). pose proof (npo_p _ _ HP) as Hpz.
    split; [exact Hpz|].
    assert (Hnp : (1 <= na_nr P <= na_p P)%nat /\
      exists q, naa_nrperc A = Fin q /\ INR (na_nr P) <= Rmax 1 (q * INR (na_p P)) < INR (na_nr P) + 1).
    { unfold outside_open, nZ in Hq. cbn [num_arith ENum EArith nlit nltb nleb] in Hq. rewrite !Rlit_0 in Hq.
      destruct (naa_nrperc A) as [q| | |] eqn:Hqe; cbn in Hq; try discriminate.
      apply negb_false_iff, andb_true_iff in Hq. destruct Hq as [Hq0 Hq1]. rb.
      unfold nZ in Hk. cbn [num_arith ENum EArith nlit nmul ntrunc er_mul er_trunc] in Hk. rewrite Rlit_0, <- Hpz, <- INR_IZR_INZ in Hk.
      pose proof (pos_INR (na_p P)) as Hp0. assert (Hp2' : 2 <= INR (na_p P)) by (apply (le_INR 2); exact Hp2).
      assert (Hqp : 0 < q * INR (na_p P) <= INR (na_p P)) by nra.
      destruct (Rlt_dec _ 0) as [H0|_]; [lra|]. injection Hk as <-.
      unfold Rfloor in Hnr. destruct (base_Int_part (q * INR (na_p P))) as [Hf1 Hf2].
      set (k := Int_part (q * INR (na_p P))) in *.
      assert (Hk0 : (-1 < k)%Z) by (apply lt_IZR; lra).
      assert (Hkp : (k <= Z.of_nat (na_p P))%Z) by (apply le_IZR; rewrite <- INR_IZR_INZ; lra).
      assert (HI : INR (na_nr P) = IZR (Z.max 1 k)).
      { rewrite INR_IZR_INZ, Hnr, Z2Nat.id by lia. reflexivity. }
      split; [lia|]. exists q. split; [reflexivity|]. rewrite HI.
      destruct (Z.max_spec 1 k) as [[Hlt ->]|[Hle ->]].
      - assert (2 <= k)%Z by lia. assert (2 <= IZR k) by (apply IZR_le; assumption).
        rewrite Rmax_right by lra. lra.
      - assert (IZR k <= 1) by (apply IZR_le; assumption).
        unfold Rmax. destruct (Rle_dec 1 (q * INR (na_p P))); lra. }
    destruct Hnp as [Hn1 Hn2]. split; [exact Hn1|]. split; [exact Hn2|]. split.
    - apply Forall_forall. intros [x f] Hin. apply in_combine_l, in_map_iff in Hin. destruct Hin as (z & <- & Hz).
      cbn [fst]. rewrite Forall_forall in HC. apply NC_FBox, HC, Hz.
    - apply explored_nb; [lia|lia|exact HEx|exact HC|exact Hl].
  Qed.
End RunCells.
