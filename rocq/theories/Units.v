(** C62: change of the units of the variables.  Scalar laws in exact arithmetic. *)
From Coq Require Import Reals Lra.
From Verif Require Import Base Num NumR NumE Env Common.
Local Open Scope R_scope.

(** New value of a coordinate: [a * x + b]; [scl] is the change of a difference. *)
Definition aff (c : R * R) (x : er) : er := er_add (er_mul (Fin (fst c)) x) (Fin (snd c)).
Definition scl (c : R * R) (x : er) : er := er_mul (Fin (fst c)) x.
Definition unaff (c : R * R) (y : er) : er := er_mul (Fin (/ fst c)) (er_sub y (Fin (snd c))).

Section Laws.
  Variable c : R * R.
  Hypothesis Hc : 0 < fst c.

  Lemma sgn_pos r p n z : 0 < r -> er_sgn r p n z = p.
  Proof. intro H. unfold er_sgn. destruct (Rlt_dec 0 r); [reflexivity | lra]. Qed.
  Lemma sgn_scale r p n z : er_sgn (fst c * r) p n z = er_sgn r p n z.
  Proof.
    unfold er_sgn.
    destruct (Rlt_dec 0 (fst c * r)), (Rlt_dec 0 r), (Rlt_dec (fst c * r) 0), (Rlt_dec r 0);
      try reflexivity; exfalso; nra.
  Qed.
  Lemma scl_eq x : scl c x = match x with Fin r => Fin (fst c * r) | y => y end.
  Proof. destruct x; cbn; try reflexivity; apply sgn_pos, Hc. Qed.
  Lemma aff_eq x : aff c x = match x with Fin r => Fin (fst c * r + snd c) | y => y end.
  Proof. unfold aff. fold (scl c x). rewrite scl_eq. destruct x; reflexivity. Qed.
  Lemma scl_sgn r p n z : er_sgn r (scl c p) (scl c n) (scl c z) = scl c (er_sgn r p n z).
  Proof. unfold er_sgn. destruct (Rlt_dec 0 r), (Rlt_dec r 0); reflexivity. Qed.

  Ltac go := rewrite ?scl_eq, ?aff_eq; cbn [er_add er_sub er_mul er_div er_opp].
  Ltac fin := try reflexivity; try (f_equal; ring).

  Lemma aff_unaff y : aff c (unaff c y) = y.
  Proof.
    pose proof (Rinv_0_lt_compat _ Hc). rewrite aff_eq. unfold unaff.
    destruct y; cbn; rewrite ?sgn_pos by assumption; try reflexivity. f_equal. field. lra.
  Qed.
  Lemma unaff_aff x : unaff c (aff c x) = x.
  Proof.
    pose proof (Rinv_0_lt_compat _ Hc). rewrite aff_eq. unfold unaff.
    destruct x; cbn; rewrite ?sgn_pos by assumption; try reflexivity. f_equal. field. lra.
  Qed.
  Lemma aff_sub x y : er_sub (aff c x) (aff c y) = scl c (er_sub x y).
  Proof. destruct x, y; go; fin. Qed.
  Lemma aff_add x v : er_add (aff c x) (scl c v) = aff c (er_add x v).
  Proof. destruct x, v; go; fin. Qed.
  Lemma add_aff v x : er_add (scl c v) (aff c x) = aff c (er_add v x).
  Proof. destruct x, v; go; fin. Qed.
  Lemma scl_mul_r k x : er_mul k (scl c x) = scl c (er_mul k x).
  Proof.
    destruct k, x; go; fin; rewrite <- ?scl_eq, ?sgn_scale, <- ?scl_sgn, ?scl_eq; fin.
  Qed.
  Lemma scl_mul_l k x : er_mul (scl c x) k = scl c (er_mul x k).
  Proof.
    destruct k, x; go; fin; rewrite <- ?scl_eq, ?sgn_scale, <- ?scl_sgn, ?scl_eq; fin.
  Qed.
  Lemma scl_add x y : er_add (scl c x) (scl c y) = scl c (er_add x y).
  Proof. destruct x, y; go; fin. Qed.
  Lemma scl_sub x y : er_sub (scl c x) (scl c y) = scl c (er_sub x y).
  Proof. destruct x, y; go; fin. Qed.
  Lemma scl_div x y : er_div (scl c x) (scl c y) = er_div x y.
  Proof.
    destruct x, y; go; rewrite ?sgn_scale; fin.
    destruct (Req_EM_T (fst c * r0) 0), (Req_EM_T r0 0); try (exfalso; nra); [reflexivity|].
    f_equal. field. split; lra.
  Qed.
  Lemma scl_0 : scl c (Fin 0) = Fin 0.
  Proof. go; fin. Qed.
  Lemma aff_ltb x y : er_ltb (aff c x) (aff c y) = er_ltb x y.
  Proof.
    destruct x, y; rewrite !aff_eq; cbn; try reflexivity. unfold Rltb.
    destruct (Rlt_dec (fst c * r + snd c) (fst c * r0 + snd c)), (Rlt_dec r r0); try reflexivity; exfalso; nra.
  Qed.
  Lemma aff_leb x y : er_leb (aff c x) (aff c y) = er_leb x y.
  Proof.
    destruct x, y; rewrite !aff_eq; cbn; try reflexivity. unfold Rleb.
    destruct (Rle_dec (fst c * r + snd c) (fst c * r0 + snd c)), (Rle_dec r r0); try reflexivity; exfalso; nra.
  Qed.
  Lemma scl_pos x : er_ltb (Fin 0) (scl c x) = er_ltb (Fin 0) x.
  Proof.
    destruct x; rewrite scl_eq; cbn; try reflexivity. unfold Rltb.
    destruct (Rlt_dec 0 (fst c * r)), (Rlt_dec 0 r); try reflexivity; exfalso; nra.
  Qed.
  (** the differences of four points that rand2bin and best2bin take *)
  Lemma aff_four x y z t :
    er_sub (er_sub (er_add (aff c x) (aff c y)) (aff c z)) (aff c t) =
    scl c (er_sub (er_sub (er_add x y) z) t).
  Proof. destruct x, y, z, t; go; fin. Qed.
  (** the point at fraction [r] between two bounds *)
  Lemma aff_uniform l u r :
    er_add (aff c l) (er_mul (er_sub (aff c u) (aff c l)) r) = aff c (er_add l (er_mul (er_sub u l) r)).
  Proof. rewrite aff_sub, scl_mul_l, aff_add. reflexivity. Qed.
  (** a range is finite in both units or in neither *)
  Lemma scl_finite x : @nfinite EArith (scl c x) = @nfinite EArith x.
  Proof.
    unfold nfinite. change (@nsub EArith) with er_sub. rewrite scl_sub.
    destruct x; cbn; try reflexivity; fin.
  Qed.
  Lemma aff_range l u : @nfinite EArith (er_sub (aff c u) (aff c l)) = @nfinite EArith (er_sub u l).
  Proof. rewrite aff_sub. apply scl_finite. Qed.
  (** half the sum of two bounds *)
  Lemma aff_half l u h : h = 1 / 2 ->
    er_mul (Fin h) (er_add (aff c u) (aff c l)) = aff c (er_mul (Fin h) (er_add u l)).
  Proof.
    intros ->. destruct u, l; rewrite !aff_eq; cbn; rewrite ?sgn_pos by lra; try reflexivity.
    f_equal. field.
  Qed.
End Laws.

Arguments aff : simpl never.
Arguments scl : simpl never.
Arguments unaff : simpl never.
Arguments er_add : simpl never.
Arguments er_sub : simpl never.
Arguments er_mul : simpl never.
Arguments er_div : simpl never.

(** Coordinate [i] is measured in unit [U i] = (scale, offset). *)
Definition Units := nat -> R * R.
Definition rest (U : Units) : Units := fun i => U (S i).

Local Notation vec := (@Env.vec (@num_arith ENum)).
Fixpoint amap (U : Units) (x : vec) : vec :=
  match x with [] => [] | v :: t => aff (U 0%nat) v :: amap (rest U) t end.
Fixpoint smap (U : Units) (x : vec) : vec :=
  match x with [] => [] | v :: t => scl (U 0%nat) v :: smap (rest U) t end.
Fixpoint unmap (U : Units) (y : vec) : vec :=
  match y with [] => [] | v :: t => unaff (U 0%nat) v :: unmap (rest U) t end.

Definition PosUnits (U : Units) : Prop := forall i, 0 < fst (U i).
(** only translations *)
Definition rigid (U : Units) : Prop := forall i, fst (U i) = 1.

Lemma rest_pos U : PosUnits U -> PosUnits (rest U).
Proof. intros H i. apply H. Qed.
Lemma rest_rigid U : rigid U -> rigid (rest U).
Proof. intros H i. apply H. Qed.

Lemma amap_length U x : length (amap U x) = length x.
Proof. revert U. induction x as [|v x IH]; intro U; cbn; [reflexivity | rewrite IH; reflexivity]. Qed.
Lemma smap_length U x : length (smap U x) = length x.
Proof. revert U. induction x as [|v x IH]; intro U; cbn; [reflexivity | rewrite IH; reflexivity]. Qed.
Lemma frange_amap U l u : PosUnits U ->
  @frange (@num_arith ENum) (amap U l) (amap U u) = @frange (@num_arith ENum) l u.
Proof.
  revert U u. induction l as [|a l IH]; intros U [|b u] HU; try reflexivity.
  unfold frange in *. cbn [combine amap forallb fst snd].
  rewrite (IH (rest U) u (rest_pos _ HU)). f_equal. exact (aff_range (U 0%nat) (HU 0%nat) a b).
Qed.
Lemma unmap_amap U x : PosUnits U -> unmap U (amap U x) = x.
Proof.
  revert U. induction x as [|v x IH]; intros U H; cbn; [reflexivity|].
  rewrite unaff_aff by apply H. rewrite IH by apply rest_pos, H. reflexivity.
Qed.
Lemma amap_unmap U x : PosUnits U -> amap U (unmap U x) = x.
Proof.
  revert U. induction x as [|v x IH]; intros U H; cbn; [reflexivity|].
  rewrite aff_unaff by apply H. rewrite IH by apply rest_pos, H. reflexivity.
Qed.
Lemma smap_rigid U x : rigid U -> smap U x = x.
Proof.
  revert U. induction x as [|v x IH]; intros U H; cbn; [reflexivity|].
  rewrite (scl_eq (U 0%nat)) by (rewrite H; lra). rewrite H, IH by apply rest_rigid, H. f_equal.
  destruct v; try reflexivity. f_equal. ring.
Qed.

Section Vec.
  Local Notation EA := (@num_arith ENum).


  Lemma u_vsub : forall U x y, PosUnits U -> @vsub EA (amap U x) (amap U y) = smap U (@vsub EA x y).
  Proof.
    intros U x. revert U. induction x as [|a x IH]; intros U [|b y] H; cbn; try reflexivity.
    rewrite aff_sub by apply H. f_equal. apply IH, rest_pos, H.
  Qed.
  Lemma u_vadd : forall U x y, PosUnits U -> @vadd EA (amap U x) (smap U y) = amap U (@vadd EA x y).
  Proof.
    intros U x. revert U. induction x as [|a x IH]; intros U [|b y] H; cbn; try reflexivity.
    rewrite aff_add by apply H. f_equal. apply IH, rest_pos, H.
  Qed.
  Lemma u_vadd' : forall U x y, PosUnits U -> @vadd EA (smap U x) (amap U y) = amap U (@vadd EA x y).
  Proof.
    intros U x. revert U. induction x as [|a x IH]; intros U [|b y] H; cbn; try reflexivity.
    rewrite add_aff by apply H. f_equal. apply IH, rest_pos, H.
  Qed.
  Lemma u_vscale : forall U k x, PosUnits U -> @vscale EA k (smap U x) = smap U (@vscale EA k x).
  Proof.
    intros U k x. revert U. induction x as [|a x IH]; intros U H; cbn; try reflexivity.
    rewrite scl_mul_r by apply H. f_equal. apply IH, rest_pos, H.
  Qed.
  Lemma u_scale_r : forall U k x, PosUnits U ->
    map (fun v => @nmul EA v k) (smap U x) = smap U (map (fun v => @nmul EA v k) x).
  Proof.
    intros U k x. revert U. induction x as [|a x IH]; intros U H; cbn; try reflexivity.
    rewrite scl_mul_l by apply H. f_equal. apply IH, rest_pos, H.
  Qed.
  Lemma u_four : forall U x y z t, PosUnits U ->
    @vsub EA (@vsub EA (@vadd EA (amap U x) (amap U y)) (amap U z)) (amap U t) =
    smap U (@vsub EA (@vsub EA (@vadd EA x y) z) t).
  Proof.
    intros U x. revert U. induction x as [|a x IH]; intros U [|b y] [|c z] [|d t] H; cbn; try reflexivity.
    rewrite aff_four by apply H. f_equal. apply IH, rest_pos, H.
  Qed.
  Lemma u_vmul : forall U x y, PosUnits U -> @vmul EA x (smap U y) = smap U (@vmul EA x y).
  Proof.
    intros U x. revert U. induction x as [|a x IH]; intros U [|b y] H; cbn; try reflexivity.
    rewrite scl_mul_r by apply H. f_equal. apply IH, rest_pos, H.
  Qed.
  Lemma u_vdiv : forall U x y, PosUnits U -> @vdiv EA (smap U x) (smap U y) = @vdiv EA x y.
  Proof.
    intros U x. revert U. induction x as [|a x IH]; intros U [|b y] H; cbn; try reflexivity.
    rewrite scl_div by apply H. f_equal. apply IH, rest_pos, H.
  Qed.
  Lemma u_zeros : forall U n, PosUnits U -> smap U (repeat (@n0 EA) n) = repeat (@n0 EA) n.
  Proof.
    intros U n. revert U. induction n as [|n IH]; intros U H; cbn; [reflexivity|].
    change (@n0 EA) with (Fin (IZR 0)). rewrite scl_0 by apply H. f_equal. apply IH, rest_pos, H.
  Qed.
  Lemma u_rigid_norm U x y : PosUnits U -> rigid U ->
    @vsub EA (amap U x) (amap U y) = @vsub EA x y.
  Proof. intros H HR. rewrite u_vsub by exact H. apply smap_rigid, HR. Qed.

  (** choosing coordinate by coordinate between two points *)
  Lemma u_choose {A} (f : A -> bool) : forall U (l : list A) x y,
    map3 (fun a v x => if f a then v else x) l (amap U x) (amap U y) =
    amap U (map3 (fun a v x => if f a then v else x) l x y).
  Proof.
    intros U l. revert U. induction l as [|a l IH]; intros U [|b x] [|c y]; cbn; try reflexivity.
    rewrite IH. destruct (f a); reflexivity.
  Qed.
  Lemma u_nth U i (X : list vec) : nth i (map (amap U) X) [] = amap U (nth i X []).
  Proof. change (@nil (@T (@num_arith ENum))) with (amap U []) at 1. apply map_nth. Qed.
  Lemma u_nths U i (X : list vec) : nth i (map (smap U) X) [] = smap U (nth i X []).
  Proof. change (@nil (@T (@num_arith ENum))) with (smap U []) at 1. apply map_nth. Qed.
  Lemma u_upd {A B} (f : A -> B) i x l : map f (upd i x l) = upd i (f x) (map f l).
  Proof. revert i. induction l as [|a l IH]; intros [|i]; cbn; try reflexivity. rewrite IH. reflexivity. Qed.
End Vec.
