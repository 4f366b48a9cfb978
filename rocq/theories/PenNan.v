(** C77: what one NaN value of the objective does to a penalized run of cmaes or vdcma. *)
From Coq Require Import Permutation.
From Verif Require Import Base Num Env Common DE Mat CMAES VDCMA Hoare EvalRules Gen Steps Hist Runs Inst Laws Safe Feas DimCma
  CmaRun PropCma.
Open Scope nat_scope.

(** ** The generations of a run, in order *)
Section Course.
  Context {N : Num} {E : Env N}.
  Context {S : Type} (D : Drv S) (cb : bool).

  (** One generation: the world before it, the state and the world after it (before the callback). *)
  Record Lap := mkLap { l_before : St; l_state : S; l_after : St }.

  (** The generations of the loop that starts after iteration [it] in state [s] and world [w]. *)
  Fixpoint course (fl : nat) (it : Z) (s : S) (w : St) : list Lap :=
    match fl with
    | O => []
    | Datatypes.S fl =>
        match d_step D (it + 1) s w with
        | (inr _, _) => []
        | (inl (s1, c), w1) =>
            mkLap w s1 w1 ::
            match when cb (call_cb (d_pop D s1) (cb_state D (it + 1) s1)) w1, c with
            | (inl _, w2), None =>
                match d_post D (it + 1) s1 w2 with
                | (inl s2, w3) => course fl (it + 1) s2 w3
                | (inr _, _) => []
                end
            | _, _ => []
            end
        end
    end.

  Context (Hpost : forall it s w, d_post D it s w = (inl s, w)).

  (** Each generation comes from the state of the one before it. *)
  Definition state_at (s0 : S) (L : list Lap) (k : nat) (s : S) : Prop :=
    match k with
    | O => s = s0
    | Datatypes.S j => exists g, nth_error L j = Some g /\ s = l_state g
    end.

  Lemma course_step fl : forall it s w k g, nth_error (course fl it s w) k = Some g ->
    exists sp c, state_at s (course fl it s w) k sp /\
      d_step D (it + 1 + Z.of_nat k) sp (l_before g) = (inl (l_state g, c), l_after g).
  Proof.
    induction fl as [|fl IH]; intros it s w k g Hg; cbn [course] in *; [destruct k; discriminate|].
    destruct (d_step D (it + 1) s w) as [[[s1 c]|e] w1] eqn:E1; [|destruct k; discriminate].
    destruct k as [|k]; cbn [nth_error] in Hg.
    - injection Hg as <-. exists s, c. split; [reflexivity|]. cbn [l_before l_state l_after].
      rewrite Z.add_0_r. exact E1.
    - destruct (when cb _ w1) as [[u|e] w2]; [|destruct k; discriminate]. destruct c as [c|]; [destruct k; discriminate|].
      rewrite Hpost in *. destruct (IH _ _ _ _ _ Hg) as (sp & c & Hs & He). exists sp, c.
      split; [|replace (it + 1 + Z.of_nat (Datatypes.S k))%Z with (it + 1 + 1 + Z.of_nat k)%Z by lia; exact He].
      destruct k as [|k]; cbn [state_at nth_error] in *; [|exact Hs].
      exists (mkLap w s1 w1). split; [reflexivity|exact Hs].
  Qed.

  (** The result is read off the state of the last generation. *)
  Lemma course_result fl : forall it s w r w', drive D cb fl it s w = (inl r, w') ->
    exists g, r_nit r = (it + Z.of_nat (length (course fl it s w)))%Z /\ (it < r_nit r)%Z /\
      nth_error (course fl it s w) (Z.to_nat (r_nit r - it) - 1) = Some g /\ r_fun r = d_fun D (l_state g).
  Proof.
    induction fl as [|fl IH]; intros it s w r w' H; cbn [drive course] in *; [discriminate|].
    unfold bind in H. destruct (d_step D (it + 1) s w) as [[[s1 c]|e] w1] eqn:E1; [|discriminate].
    destruct (when cb _ w1) as [[u|e] w2] eqn:E2; [|discriminate]. destruct c as [c|].
    - unfold result, bind in H. destruct (orelse _ _ w2) as [[msg|e] w3]; [|discriminate]. unfold ret in H. injection H as <- _.
      exists (mkLap w s1 w1). cbn. split; [lia|]. split; [lia|]. split; [|reflexivity].
      replace (Z.to_nat (it + 1 - it) - 1) with 0 by lia. reflexivity.
    - rewrite Hpost in *. destruct (IH _ _ _ _ _ H) as (g & H1 & H2 & H3 & H4). exists g. cbn [length].
      split; [lia|]. split; [lia|]. split; [|exact H4].
      replace (Z.to_nat (r_nit r - it) - 1) with (Datatypes.S (Z.to_nat (r_nit r - (it + 1)) - 1)) by lia. exact H3.
  Qed.

  (** The callbacks see the states of the generations. *)
  Lemma course_cbs (Hq : forall it s w r w', d_step D it s w = (inl r, w') -> cbs (tr w') = cbs (tr w)) fl :
    forall it s w r w', drive D cb fl it s w = (inl r, w') ->
    forall X st, In (X, st) (cbs (tr w')) -> In (X, st) (cbs (tr w)) \/
      exists k g, nth_error (course fl it s w) k = Some g /\ st = cb_state D (it + 1 + Z.of_nat k) (l_state g).
  Proof.
    induction fl as [|fl IH]; intros it s w r w' H X st Hin; cbn [drive course] in *; [discriminate|].
    unfold bind in H. destruct (d_step D (it + 1) s w) as [[[s1 c]|e] w1] eqn:E1; [|discriminate].
    pose proof (Hq _ _ _ _ _ E1) as Hw1.
    destruct (when cb _ w1) as [[u|e] w2] eqn:E2; [|discriminate].
    assert (Hw2 : forall X st, In (X, st) (cbs (tr w2)) -> In (X, st) (cbs (tr w)) \/ st = cb_state D (it + 1) s1).
    { clear - E2 Hw1. intros X st Hin. unfold when in E2. destruct cb.
      - unfold call_cb in E2. destruct (e_cb _ _ _) as [y v]. destruct y; [discriminate|]. injection E2 as <- <-. cbn [tr] in Hin.
        rewrite cbs_app in Hin; apply in_app_iff in Hin; destruct Hin as [Hin|Hin]; [left; rewrite <- Hw1; exact Hin|].
        cbn in Hin; destruct Hin as [Hin|[]]; injection Hin as _ <-; right; reflexivity.
      - unfold ret in E2. injection E2 as <- <-. left. rewrite <- Hw1. exact Hin. }
    destruct c as [c|].
    - unfold result, bind in H. destruct (message c); cbn [orelse] in H; unfold ret, raise in H; [|discriminate]. injection H as <- <-.
      destruct (Hw2 X st Hin) as [|Hs]; [left; assumption|]. right. exists 0, (mkLap w s1 w1).
      split; [reflexivity|]. rewrite Z.add_0_r. exact Hs.
    - rewrite Hpost in *. destruct (IH _ _ _ _ _ H _ _ Hin) as [Hi|(k & g & Hk & Hs)].
      + destruct (Hw2 X st Hi) as [|Hs]; [left; assumption|]. right. exists 0, (mkLap w s1 w1).
        split; [reflexivity|]. rewrite Z.add_0_r. exact Hs.
      + right. exists (Datatypes.S k), g. split; [exact Hk|]. rewrite Hs. f_equal. lia.
  Qed.
End Course.
Arguments mkLap {N E S}.
Arguments l_before {N E S}.
Arguments l_state {N E S}.
Arguments l_after {N E S}.

(** ** Arithmetic with NaN *)
Section Nan.
  Context {N : Num} {E : Env N}.
  Local Open Scope num_scope.
  Notation nvec := (list (@T (@num_arith N))).

  Definition NotNum (x : @T (@num_arith N)) : Prop := nleb x x = false.

  (** NaN is absorbed by no operation used in the penalties, and equals nothing. *)
  Class NanArith : Prop := {
    na_eq : forall x y : @T (@num_arith N), NotNum x -> neqb x y = false;
    na_sub : forall x y : @T (@num_arith N), NotNum x -> NotNum (nsub x y);
    na_add_l : forall x y : @T (@num_arith N), NotNum x -> NotNum (nadd x y);
    na_add_r : forall x y : @T (@num_arith N), NotNum y -> NotNum (nadd x y);
    na_mul_l : forall x y : @T (@num_arith N), NotNum x -> NotNum (nmul x y);
    na_mul_r : forall x y : @T (@num_arith N), NotNum y -> NotNum (nmul x y);
    na_div : forall x y : @T (@num_arith N), NotNum x -> NotNum (ndiv x y) }.

  (** np.percentile and np.median of an array with a NaN are NaN. *)
  Definition NanQuantiles : Prop :=
    (forall (v : nvec) q, Exists NotNum v -> NotNum (e_percentile v q)) /\
    (forall v : nvec, Exists NotNum v -> NotNum (e_median v)).

  Context {HA : NanArith} (HQ : NanQuantiles).

  Lemma fold_nan (l : nvec) : forall a, NotNum a -> NotNum (fold_left nadd l a).
  Proof. induction l as [|b l IH]; intros a Ha; [exact Ha|]. cbn. apply IH, na_add_l, Ha. Qed.
  Lemma sum_nan (l : nvec) : Exists NotNum l -> NotNum (vsum l).
  Proof.
    unfold vsum. generalize (n0 : @T (@num_arith N)). induction l as [|b l IH]; intros a Hl; [inversion Hl|]. cbn.
    inversion Hl; subst; [apply fold_nan, na_add_r; assumption|apply IH; assumption].
  Qed.
  (** A row that is not empty has a NaN penalty when all weights are NaN. *)
  Lemma penalty_nan (d : nat) (v x wt sc : nvec) : 1 <= d -> length v = d -> length x = d -> length wt = d -> length sc = d ->
    Forall NotNum wt -> NotNum (penalty v x wt sc).
  Proof.
    intros Hd Hv Hx Hw Hs HF. unfold penalty, vdot. apply sum_nan.
    destruct v as [|v1 v]; [cbn in Hv; lia|]. destruct x as [|x1 x]; [cbn in Hx; lia|].
    destruct wt as [|w1 wt]; [cbn in Hw; lia|]. destruct sc as [|s1 sc]; [cbn in Hs; lia|].
    cbn [vmul vsub vdiv map map2]. apply Exists_cons_hd. apply na_mul_r, na_div. inversion HF; assumption.
  Qed.
  Lemma grow_nan d mueff (idx : list bool) (wt : nvec) : Forall NotNum wt -> Forall NotNum (pen_grow d mueff idx wt).
  Proof.
    intros HF. unfold pen_grow. revert idx. induction HF as [|w wt Hw HF IH]; intros [|i idx]; cbn [map2]; constructor.
    - destruct i; [apply na_mul_l, Hw|exact Hw].
    - apply IH.
  Qed.
  Lemma idx_len d mueff sigma (dg xm xo : nvec) n : length dg = n -> length xm = n -> length xo = n ->
    length (pen_idx d mueff sigma dg xm xo) = n.
  Proof.
    intros H1 H2 H3. unfold pen_idx, pen_ti, pen_tx. rewrite map3_length, !combine_length, !map_length. lia.
  Qed.
  Lemma map3_all {A B C X} (f : A -> B -> C -> X) (P : X -> Prop) (Q : B -> C -> Prop) l1 : forall l2 l3,
    (forall a b c, Q b c -> P (f a b c)) -> Forall2 Q l2 l3 -> Forall P (map3 f l1 l2 l3).
  Proof.
    induction l1 as [|a l1 IH]; intros l2 l3 Hf HF; [destruct HF; constructor|].
    destruct HF as [|b c l2 l3 Hbc HF]; [constructor|]. cbn [map3]. constructor; [apply Hf, Hbc|apply IH; assumption].
  Qed.

  (** ** One generation *)
  (** the mean lies outside the (standardised) box *)
  Definition OutMean (xmean : nvec) : Prop := Exists (fun x => nltb x (nZ (-1)) = true \/ nltb n1 x = true) xmean.
  Lemma out_ti xmean : OutMean xmean <-> existsb (fun b => b) (pen_ti xmean) = true.
  Proof.
    unfold OutMean, pen_ti. rewrite existsb_exists, Exists_exists. split.
    - intros (x & Hx & Ho). eexists. split; [apply in_map, Hx|]. apply orb_true_iff. exact Ho.
    - intros (b & Hb & ->). apply in_map_iff in Hb. destruct Hb as (x & Ho & Hx). exists x. split; [exact Hx|].
      apply orb_true_iff. exact Ho.
  Qed.

  (** At most [n] values have been recorded since a NaN one. *)
  Definition Recent (n : nat) (p : PenState) : Prop :=
    pen_valid p = true /\ exists a x b, pen_hist p = a ++ x :: b /\ NotNum x /\ length b <= n.
  (** The weights are NaN for good. *)
  Definition Spoilt (d : nat) (p : PenState) : Prop :=
    pen_ini p = false /\ Forall NotNum (pen_w p) /\ length (pen_w p) = d.

  Section Fit.
    Context (P : CMAParams) (it : Z) (v : CV) (dg : nvec) (arx valid : list nvec) (raw fit : nvec) (pen' : PenState).
    Context (HP : cm_pen P = true) (HF : FitOf P it v dg arx valid raw fit pen').

    Lemma fit_nan : Exists NotNum raw -> Recent 0 pen'.
    Proof.
      intros Hn. destruct (fo_pen _ _ _ _ _ _ _ _ _ HF HP) as (_ & _ & delta & hist & Hd & Hh & _).
      destruct HQ as [HQ1 _].
      assert (Hp : NotNum ((e_percentile raw (nZ 75) - e_percentile raw (nZ 25)) / nN (cm_d P) / vmean dg / nsq (cv_sigma v))).
      { apply na_div, na_div, na_div, na_sub, HQ1, Hn. }
      destruct Hd as [(-> & _ & _ & Hv)|(He & _)]; [|rewrite (na_eq _ _ Hp) in He; discriminate].
      split; [exact Hv|]. rewrite Hh. destruct (nltb _ _); eexists _, _, []; (split; [reflexivity|]); split; auto.
    Qed.
    Lemma fit_keep n : (forall i, (i < 20)%nat -> nltb (nN i) (nZ 20 + nZ 3 * nN (cm_d P) / nN (cm_p P)) = true) ->
      n <= 18 -> Recent n (cv_pen v) -> Recent (S n) pen'.
    Proof.
      intros HK Hn (Hv & a & x & b & Hh & Hx & Hb).
      destruct (fo_pen _ _ _ _ _ _ _ _ _ HF HP) as (_ & _ & delta & hist & Hd & Hh' & _).
      assert (HH : hist = pen_hist (cv_pen v) /\ pen_valid pen' = true).
      { destruct Hd as [(_ & _ & H1 & H2)|(_ & H1 & _ & _ & H2)]; [rewrite Hv in H1|rewrite Hv in H2]; auto. }
      destruct HH as [-> Hv']. split; [exact Hv'|]. rewrite Hh in Hh'.
      destruct (nltb _ _) eqn:Hl.
      - exists a, x, (b ++ [delta]). rewrite Hh', <- app_assoc. split; [reflexivity|]. split; [exact Hx|]. rewrite app_length. cbn. lia.
      - assert (Hlen : 20 <= length (a ++ x :: b)).
        { destruct (le_lt_dec 20 (length (a ++ x :: b))) as [|Hc]; [assumption|]. apply HK in Hc.
          exact (False_ind _ (Bool.diff_true_false (eq_trans (eq_sym Hc) Hl))). }
        rewrite app_length in Hlen. cbn [length] in Hlen. destruct a as [|a1 a]; [cbn in Hlen; lia|].
        exists a, x, (b ++ [delta]). rewrite Hh'. cbn [app tl]. rewrite <- app_assoc. split; [reflexivity|]. split; [exact Hx|]. rewrite app_length. cbn. lia.
    Qed.
    Lemma fit_ini : ~ OutMean (cv_xmean v) \/ (it <= 2)%Z -> pen_ini pen' = pen_ini (cv_pen v).
    Proof.
      intros Ho. destruct (fo_pen _ _ _ _ _ _ _ _ _ HF HP) as (_ & _ & delta & hist & _ & _ & _ & ->).
      destruct Ho as [Ho|Ho].
      - destruct (existsb (fun b => b) (pen_ti (cv_xmean v))) eqn:Ee; [exfalso; apply Ho, out_ti, Ee|]. cbn. apply andb_true_r.
      - replace (2 <? it)%Z with false by (symmetry; apply Z.ltb_ge; exact Ho). rewrite !andb_false_r. apply andb_true_r.
    Qed.
    Lemma grow_len d mueff idx (wt : nvec) : length idx = length wt -> length (pen_grow d mueff idx wt) = length wt.
    Proof. intros H. unfold pen_grow. rewrite map2_length. lia. Qed.
    Context (Hdg : length dg = cm_d P) (Hxm : length (cv_xmean v) = cm_d P) (Hxo : length (cv_xold v) = cm_d P).
    Lemma fit_spoil n : pen_ini (cv_pen v) = true -> OutMean (cv_xmean v) -> (2 < it)%Z -> Recent n pen' -> Spoilt (cm_d P) pen'.
    Proof.
      intros Hi Ho Hit (Hv & a & x & b & Hh & Hx & _). destruct HQ as [_ HQ2].
      destruct (fo_pen _ _ _ _ _ _ _ _ _ HF HP) as (_ & _ & delta & hist & _ & _ & Hw & Hin).
      rewrite Hi, (proj1 (out_ti _) Ho) in Hw, Hin. cbn [andb] in Hw, Hin. cbn zeta in Hw.
      assert (Hm : NotNum (e_median (pen_hist pen'))).
      { apply HQ2. rewrite Hh. apply Exists_app. right. apply Exists_cons_hd. exact Hx. }
      split; [|split].
      - rewrite Hin, Hv. replace (2 <? it)%Z with true by (symmetry; apply Z.ltb_lt; exact Hit). reflexivity.
      - rewrite Hw. apply grow_nan. apply Forall_forall. intros y Hy. apply repeat_spec in Hy. subst y. apply na_mul_r, Hm.
      - rewrite Hw, grow_len; rewrite repeat_length; [reflexivity|]. apply idx_len; assumption.
    Qed.
    Lemma fit_spoilt : Spoilt (cm_d P) (cv_pen v) -> Spoilt (cm_d P) pen'.
    Proof.
      intros (Hi & Hw & Hl). destruct (fo_pen _ _ _ _ _ _ _ _ _ HF HP) as (_ & _ & delta & hist & _ & _ & Hw' & Hin).
      rewrite Hi in Hw', Hin. cbn [andb] in Hw', Hin. cbn zeta in Hw'. split; [exact Hin|]. rewrite Hw'.
      destruct (existsb _ _); [|split; assumption]. split; [apply grow_nan, Hw|]. rewrite grow_len; [exact Hl|]. rewrite Hl. apply idx_len; assumption.
    Qed.
    Lemma fit_bad : 1 <= cm_d P -> Forall (fun x => length x = cm_d P) arx -> Spoilt (cm_d P) pen' -> Forall NotNum fit.
    Proof.
      intros Hd Ha (_ & Hw & Hl). destruct (fo_pen _ _ _ _ _ _ _ _ _ HF HP) as (-> & -> & _).
      apply map3_all with (Q := fun y x : nvec => length y = cm_d P /\ length x = cm_d P).
      - intros f y x [Hy Hx]. apply na_add_r. apply (penalty_nan (cm_d P)); try assumption.
        unfold bnd_scale. rewrite map_length. exact Hdg.
      - clear - Ha. induction Ha as [|x l Hx Ha IH]; cbn [map]; constructor; auto. rewrite map_length. auto.
    Qed.
  End Fit.
End Nan.

(** ** A run *)
Section Sys.
  Context {N : Num} {E : Env N}.
  Notation nvec := (list (@T (@num_arith N))).
  Context {HA : NanArith} (HQ : NanQuantiles) (HE : EnvOK).
  Context {S : Type} (D : Drv S) (cb : bool) (P : CMAParams) (view : S -> CV) (diag : S -> nvec) (Good : S -> Prop).
  Context (Hpost : forall it s w, d_post D it s w = (inl s, w)).
  Context (Hgood : forall s, Good s -> length (cv_xmean (view s)) = cm_d P /\ length (diag s) = cm_d P).
  Context (Hstep : forall it s w s' c w', Good s -> d_step D it s w = (inl (s', c), w') ->
    Good s' /\ Forall (fun x => length x = cm_d P) (cv_valid (view s')) /\
    exists evs arx raw, tr w' = tr w ++ evs /\ CGen P it (view s) (view s') c evs (diag s) arx raw).
  Context (Hfun : forall s, d_fun D s = cv_bestf (view s)).
  Context (HP : cm_pen P = true) (Hm : cm_mode P <> Mpi) (Hd : 1 <= cm_d P) (Hp : 1 <= cm_p P).
  Context (HK : forall i, (i < 20)%nat -> (nN i <? nZ 20 + nZ 3 * nN (cm_d P) / nN (cm_p P))%num = true).

  (** the objective returned NaN between the worlds [w] and [w'] *)
  Definition NanSeen (w w' : St) : Prop :=
    exists evs x y, tr w' = tr w ++ evs /\ In (x, y) (evals evs) /\ NotNum y.

  Context (s0 : S) (w0 : St) (fl : nat) (H0 : Good s0) (Hi0 : pen_ini (cv_pen (view s0)) = true).
  Let L := course D cb fl 0 s0 w0.

  Lemma at_good k s : state_at s0 L k s -> Good s.
  Proof.
    revert s. induction k as [|k IH]; intros s Hs; cbn [state_at] in Hs; [subst; exact H0|].
    destruct Hs as (g & Hg & ->). destruct (course_step D cb Hpost fl 0 s0 w0 k g Hg) as (sp & c & Hsp & He).
    exact (proj1 (Hstep _ _ _ _ _ _ (IH sp Hsp) He)).
  Qed.
  (** what relates the states before and after generation [k + 1] *)
  Lemma at_step k g : nth_error L k = Some g -> exists sp c evs arx raw,
    state_at s0 L k sp /\ tr (l_after g) = tr (l_before g) ++ evs /\
    CGen P (Z.of_nat k + 1) (view sp) (view (l_state g)) c evs (diag sp) arx raw /\
    Forall (fun x => length x = cm_d P) arx /\ length (cv_xmean (view sp)) = cm_d P /\ length (diag sp) = cm_d P.
  Proof.
    intros Hg. destruct (course_step D cb Hpost fl 0 s0 w0 k g Hg) as (sp & c & Hsp & He).
    pose proof (at_good k sp Hsp) as HG. replace (0 + 1 + Z.of_nat k)%Z with (Z.of_nat k + 1)%Z in He by lia.
    destruct (Hstep _ _ _ _ _ _ HG He) as (_ & Hv & evs & arx & raw & Ht & HC).
    exists sp, c, evs, arx, raw. split; [exact Hsp|]. split; [exact Ht|]. split; [exact HC|].
    destruct (Hgood sp HG) as [H1 H2]. split; [|split; assumption].
    destruct (fo_pen _ _ _ _ _ _ _ _ _ (cg_fit _ _ _ _ _ _ _ _ _ HC) HP) as (Hval & _). rewrite Hval in Hv.
    clear - Hv. induction arx as [|x arx IH]; [constructor|]. cbn [map] in Hv. inversion Hv; subst. constructor; [|apply IH; assumption].
    rewrite map_length in H1. exact H1.
  Qed.
  Lemma at_old k g : nth_error L (Datatypes.S k) = Some g -> forall sp, state_at s0 L (Datatypes.S k) sp -> length (cv_xold (view sp)) = cm_d P.
  Proof.
    intros _ sp (g' & Hg' & ->). destruct (at_step k g' Hg') as (sq & c & evs & arx & raw & _ & _ & HC & _ & Hx & _).
    rewrite (cg_xold _ _ _ _ _ _ _ _ _ HC). exact Hx.
  Qed.
  Lemma at_fun k s s' : state_at s0 L k s -> state_at s0 L k s' -> s = s'.
  Proof.
    destruct k as [|k]; cbn [state_at]; [congruence|]. intros (g & Hg & ->) (g' & Hg' & ->). rewrite Hg in Hg'. injection Hg' as ->. reflexivity.
  Qed.

  (** the iniphase flag stays set until the mean is outside in a generation after the second *)
  Lemma ini_kept n : (forall m s, (2 < m)%nat -> m <= n -> state_at s0 L (m - 1) s -> ~ OutMean (cv_xmean (view s))) ->
    forall s, state_at s0 L n s -> pen_ini (cv_pen (view s)) = true.
  Proof.
    intros Hin. induction n as [|n IH]; intros s Hs; cbn [state_at] in Hs; [subst; exact Hi0|].
    destruct Hs as (g & Hg & ->). destruct (at_step n g Hg) as (sp & c & evs & arx & raw & Hsp & _ & HC & _).
    rewrite (fit_ini P _ _ _ _ _ _ _ _ HP (cg_fit _ _ _ _ _ _ _ _ _ HC)).
    - apply IH; [|exact Hsp]. intros m s H1 H2 H3. apply (Hin m s H1); [lia|exact H3].
    - destruct (le_lt_dec n 1) as [Hn|Hn]; [right; lia|]. left.
      apply (Hin (Datatypes.S n) sp); [lia|lia|]. replace (Datatypes.S n - 1) with n by lia. exact Hsp.
  Qed.

  Lemma seen_raw k g : nth_error L k = Some g -> NanSeen (l_before g) (l_after g) -> Recent 0 (cv_pen (view (l_state g))).
  Proof.
    intros Hg (evs' & x & y & Ht' & Hin & Hy). destruct (at_step k g Hg) as (sp & c & evs & arx & raw & Hsp & Ht & HC & _).
    rewrite Ht in Ht'. apply app_inv_head in Ht'. subst evs'.
    apply (fit_nan HQ P _ _ _ _ _ _ _ _ HP (cg_fit _ _ _ _ _ _ _ _ _ HC)).
    destruct (cg_ev _ _ _ _ _ _ _ _ _ HC Hm) as (l & -> & Hl & _). rewrite evals_ok in Hin.
    apply (Permutation_in _ Hl), in_combine_r in Hin. apply Exists_exists. exists y. auto.
  Qed.
  Lemma recent_kept k g j : nth_error L k = Some g -> Recent 0 (cv_pen (view (l_state g))) -> j <= 19 ->
    forall g', nth_error L (k + j) = Some g' -> Recent j (cv_pen (view (l_state g'))).
  Proof.
    intros Hg HR. induction j as [|j IH]; intros Hj g' Hg'.
    - rewrite Nat.add_0_r, Hg in Hg'. injection Hg' as <-. exact HR.
    - replace (k + Datatypes.S j) with (Datatypes.S (k + j)) in Hg' by lia.
      destruct (at_step _ g' Hg') as (sp & c & evs & arx & raw & Hsp & Ht & HC & _).
      destruct Hsp as (g1 & Hg1 & ->).
      apply (fit_keep P _ _ _ _ _ _ _ _ HP (cg_fit _ _ _ _ _ _ _ _ _ HC) j HK); [lia|]. apply IH; [lia|exact Hg1].
  Qed.

  Theorem course_spoilt k n g : 1 <= k -> nth_error L (k - 1) = Some g -> NanSeen (l_before g) (l_after g) ->
    k <= n -> n <= k + 19 -> (2 < n)%nat ->
    (forall s, state_at s0 L (n - 1) s -> OutMean (cv_xmean (view s))) ->
    (forall m s, (2 < m)%nat -> (m < n)%nat -> state_at s0 L (m - 1) s -> ~ OutMean (cv_xmean (view s))) ->
    forall m g', n <= m -> nth_error L (m - 1) = Some g' ->
      Spoilt (cm_d P) (cv_pen (view (l_state g'))) /\ Forall NotNum (cv_fit (view (l_state g'))) /\
      NotNum (d_fun D (l_state g')).
  Proof.
    intros Hk Hg Hs Hkn Hn Hn2 Hout Hins m g' Hnm Hg'.
    assert (HS : Spoilt (cm_d P) (cv_pen (view (l_state g')))).
    { replace (m - 1) with (n - 1 + (m - n)) in Hg' by lia. remember (m - n) as j eqn:Ej. clear m Hnm Ej. revert g' Hg'.
      induction j as [|j IH]; intros g' Hg'.
      - rewrite Nat.add_0_r in Hg'. destruct (at_step _ g' Hg') as (sp & c & evs & arx & raw & Hsp & Ht & HC & _ & Hx & Hdg).
        assert (Hr : Recent (n - k) (cv_pen (view (l_state g')))).
        { apply (recent_kept (k - 1) g); [exact Hg|exact (seen_raw _ _ Hg Hs)|lia|]. replace (k - 1 + (n - k)) with (n - 1) by lia. exact Hg'. }
        assert (Hxo : length (cv_xold (view sp)) = cm_d P).
        { revert Hsp Hg'. replace (n - 1) with (Datatypes.S (n - 2)) by lia. intros Hsp Hg'. exact (at_old _ _ Hg' _ Hsp). }
        eapply (fit_spoil HQ P _ _ _ _ _ _ _ _ HP (cg_fit _ _ _ _ _ _ _ _ _ HC) Hdg Hx Hxo (n - k)).
        + apply (ini_kept (n - 1)); [|exact Hsp]. intros m s H1 H2 H3. apply (Hins m s H1); [lia|exact H3].
        + apply Hout, Hsp.
        + lia.
        + exact Hr.
      - replace (n - 1 + Datatypes.S j) with (Datatypes.S (n - 1 + j)) in Hg' by lia.
        destruct (at_step _ g' Hg') as (sp & c & evs & arx & raw & Hsp & Ht & HC & _ & Hx & Hdg).
        pose proof (at_old _ _ Hg' _ Hsp) as Hxo. destruct Hsp as (g1 & Hg1 & ->).
        apply (fit_spoilt P _ _ _ _ _ _ _ _ HP (cg_fit _ _ _ _ _ _ _ _ _ HC) Hdg Hx Hxo). apply IH, Hg1. }
    split; [exact HS|].
    destruct (at_step _ g' Hg') as (sp & c & evs & arx & raw & Hsp & Ht & HC & Ha & Hx & Hdg).
    assert (HF : Forall NotNum (cv_fit (view (l_state g')))).
    { apply (fit_bad P _ _ _ _ _ _ _ _ HP (cg_fit _ _ _ _ _ _ _ _ _ HC) Hdg Hd Ha HS). }
    split; [exact HF|]. rewrite Hfun. unfold cv_bestf, cv_best.
    rewrite (cg_index _ _ _ _ _ _ _ _ _ HC). destruct (CGen_len _ _ _ _ _ _ _ _ _ HC) as [_ Hlf].
    apply Forall_nth_lt; [exact HF|]. apply (argsort0 HE). unfold vec in *. rewrite Hlf. exact Hp.
  Qed.

  (** the result and the callbacks *)
  Theorem drive_spoilt k n g res w' : 1 <= k -> nth_error L (k - 1) = Some g -> NanSeen (l_before g) (l_after g) ->
    k <= n -> n <= k + 19 -> (2 < n)%nat ->
    (forall s, state_at s0 L (n - 1) s -> OutMean (cv_xmean (view s))) ->
    (forall m s, (2 < m)%nat -> (m < n)%nat -> state_at s0 L (m - 1) s -> ~ OutMean (cv_xmean (view s))) ->
    cbs (tr w0) = [] -> (forall it s w r w', d_step D it s w = (inl r, w') -> cbs (tr w') = cbs (tr w)) ->
    drive D cb fl 0 s0 w0 = (inl res, w') ->
    ((Z.of_nat n <= r_nit res)%Z -> NotNum (r_fun res)) /\
    (forall X st, In (X, st) (cbs (tr w')) -> (Z.of_nat n <= cb_nit st)%Z -> NotNum (cb_fun st)).
  Proof.
    intros Hk Hg Hs Hkn Hn Hn2 Hout Hins Ht Hq Hx. split.
    - intros Hr. destruct (course_result D cb Hpost fl _ _ _ _ _ Hx) as (g' & _ & H2 & H3 & ->). fold L in H3.
      rewrite Z.sub_0_r in H3.
      exact (proj2 (proj2 (course_spoilt k n g Hk Hg Hs Hkn Hn Hn2 Hout Hins (Z.to_nat (r_nit res)) g' ltac:(lia) H3))).
    - intros X st Hin Hr. destruct (course_cbs D cb Hpost Hq fl _ _ _ _ _ Hx X st Hin) as [Hi|(j & g' & Hj & ->)].
      + rewrite Ht in Hi. destruct Hi.
      + assert (Hr' : (Z.of_nat n <= 0 + 1 + Z.of_nat j)%Z) by exact Hr.
        change (NotNum (d_fun D (l_state g'))).
        refine (proj2 (proj2 (course_spoilt k n g Hk Hg Hs Hkn Hn Hn2 Hout Hins (Datatypes.S j) g' _ _))); [lia|].
        cbn [Nat.sub]. rewrite Nat.sub_0_r. exact Hj.
  Qed.
End Sys.

(** ** cmaes and vdcma *)
Section Begin.
  Context {N : Num} {E : Env N}.

  (** What cmaes does before its loop (cmaes/_cmaes.py:95-228). *)
  Definition cma_begin (A : CMAArgs) : M (CMAParams * CMAS) :=
    cma_check A ;;;
    let a := caa A in
    '(xmean, P0) <- cma_setup A ;;
    '(nout, ilim) <- cma_alloc a ;;
    let d := cm_d P0 in
    let P := mkCMAParams (cm_p P0) d (cm_mu P0) (cm_w P0) (cm_mueff P0) (cm_xm P0) (cm_xstd P0)
                         (cm_pen P0) (cm_maxiter P0) (cm_xtol P0) (cm_ftol P0) (cm_insigma P0)
                         ilim (cm_mode P0) nout in
    ret (P, mkCMAS xmean (e_empty d) (repeat n0 d) (repeat n0 d) (eye d) (repeat n1 d) (eye d)
                    (eye d) (caa_sigma A) (cma_init_pen d) 0 0
                    (repeat n0 (Z.to_nat (a_maxiter a))) [] [] []
                    (match nout with Some _ => Some ([], []) | None => None end)).
  Lemma cma_begins A w : cmaes_minimize A w =
    bind (cma_begin A) (fun Ps => drive (cma_drv (fst Ps)) (has_cb (caa A)) (fuel (a_maxiter (caa A))) 0 (snd Ps)) w.
  Proof.
    unfold cmaes_minimize, cma_begin, cmaes, bind. destruct (cma_check A w) as [[[]|e] w0]; [|reflexivity].
    destruct (cma_setup A w0) as [[[xmean P0]|e] w1]; [|reflexivity].
    destruct (cma_alloc (caa A) w1) as [[[nout ilim]|e] w3]; reflexivity.
  Qed.

  (** What vdcma does before its loop (vdcma/_vdcma.py:96-243). *)
  Definition vd_begin (A : CMAArgs) : M (CMAParams * VDS) :=
    cma_check A ;;;
    let a := caa A in
    '(xmean, P0) <- cma_setup A ;;
    let d := cm_d P0 in
    z <- randn_vec d ;;
    let vvec := map (fun x => ndiv x (nsqrt (nN d))) z in
    '(nout, ilim) <- cma_alloc a ;;
    let P := mkCMAParams (cm_p P0) d (cm_mu P0) (cm_w P0) (cm_mueff P0) (cm_xm P0) (cm_xstd P0)
                         (cm_pen P0) (cm_maxiter P0) (cm_xtol P0) (cm_ftol P0) (cm_insigma P0)
                         ilim (cm_mode P0) nout in
    let nv2 := vdot vvec vvec in
    let nv := nsqrt nv2 in
    let vn := map (fun x => ndiv x nv) vvec in
    ret (P, mkVDS xmean (e_empty d) (repeat n0 d) n0 (repeat n1 d) vvec nv2 nv vn (map nsq vn)
                   (repeat n0 d) false (caa_sigma A) (cma_init_pen d) 0
                   (repeat n0 (Z.to_nat (a_maxiter a))) [] [] []
                   (match nout with Some _ => Some ([], []) | None => None end)).
  Lemma vd_begins A w : vdcma_minimize A w =
    bind (vd_begin A) (fun Ps => drive (vd_drv (fst Ps)) (has_cb (caa A)) (fuel (a_maxiter (caa A))) 0 (snd Ps)) w.
  Proof.
    unfold vdcma_minimize, vd_begin, vdcma, bind. destruct (cma_check A w) as [[[]|e] w0]; [|reflexivity].
    destruct (cma_setup A w0) as [[[xmean P0]|e] w1]; [|reflexivity].
    destruct (randn_vec (cm_d P0) w1) as [[z|e] w2]; [|reflexivity].
    destruct (cma_alloc (caa A) w2) as [[[nout ilim]|e] w3]; reflexivity.
  Qed.
End Begin.

Section Solvers.
  Context {N : Num} {E : Env N}.
  Notation nvec := (list (@T (@num_arith N))).
  Context {HA : NanArith} (HQ : NanQuantiles) (HE : EnvOK) (HEig : EighRows).
  Context (A : CMAArgs) (rows : list nvec) (Hb : a_bounds (caa A) = D2 2 rows) (Hr : 1 <= length rows).
  Context (Hc : a_constraints (caa A) = Some "Penalize"%string) (Hmpi : a_backend (caa A) <> Some "mpi"%string).
  Let d := length rows.
  Let p := Z.to_nat (a_popsize (caa A)).
  (** fewer than twenty entries: the list of spreads is not full *)
  Context (HK : forall i, i < 20 -> (nN i <? nZ 20 + nZ 3 * nN d / nN p)%num = true).

  Let Pe : nvec -> Prop := fun _ => True.
  Let Pv : nvec -> Prop := fun x => length x = d.
  Let Pc : list nvec -> CbState -> Prop := fun _ _ => True.
  Let xm := cma_xm (lows rows) (ups rows).
  Let xstd := cma_xstd (lows rows) (ups rows).

  Lemma pv_ok : forall x : nvec, length x = d -> Pv (if true then map clip1 x else x).
  Proof. intros x Hx. unfold Pv. rewrite map_length. exact Hx. Qed.
  Lemma pen_true : is_pen A = true.
  Proof. unfold is_pen. rewrite Hc. reflexivity. Qed.

  Lemma mode_ok m : ModeKeeps Pe m.
  Proof. split; [apply EnvOK_mode, HE|]. intros _ n X HX. apply Forall_forall. intros x _. exact Logic.I. Qed.
  Lemma cm_ok P : CMAParamsOf A P -> CmOK d true xm xstd Pe P.
  Proof.
    intros HP. destruct (cpo_bounds _ _ HP) as (rows' & Hb' & Hx1 & Hx2). rewrite Hb in Hb'. injection Hb' as <-.
    constructor.
    - rewrite (cpo_d _ _ HP), Hb. reflexivity.
    - rewrite (cpo_pen _ _ HP), Hc. reflexivity.
    - exact Hx1.
    - exact Hx2.
    - rewrite (cpo_p _ _ HP). pose proof (cpo_p1 _ _ HP). lia.
    - apply mode_ok.
  Qed.
  Lemma mean_len P xmean : CmOK d true xm xstd Pe P -> mean_init A P xmean -> length xmean = d.
  Proof.
    intros HP Hm. unfold mean_init in Hm. rewrite (co_d _ _ _ _ _ _ HP), (co_xm _ _ _ _ _ _ HP), (co_xstd _ _ _ _ _ _ HP) in Hm.
    destruct (a_x0 (caa A)) as [x|]; [|exact (proj1 Hm)]. destruct Hm as [-> Hl].
    unfold standardize, vdiv, vsub. rewrite !map2_length. pose proof (xm_len (rows)). pose proof (xstd_len rows).
    unfold xm, xstd, d, vec, matrix in *. lia.
  Qed.

  (** *** cmaes *)
  Lemma cma_begin_spec w : wp (cma_begin A) (fun Ps w' => CMAParamsOf A (fst Ps) /\ CInv d (snd Ps) /\
    pen_ini (cs_pen (snd Ps)) = true /\ tr w' = tr w) NF w.
  Proof.
    unfold cma_begin. apply wp_bind, wp_cma_check. intros w1 Hx0 Hsg Hmp Hcb.
    apply wp_bind, wp_cma_setup; [exact Hx0|].
    intros xmean P0 s1 Ht1 Hb1 Hxm HP Hd Hmx Hisg. cbn [tr argbuf] in Ht1, Hb1.
    apply wp_bind, wp_cma_alloc. intros nout ilim H1 H2 H3 H4 H5.
    specialize (HP nout ilim Hsg Hmp H1 H2 H3 H4 H5). apply wp_ret. cbn [fst snd cs_pen].
    assert (Hdd : cm_d P0 = d) by (rewrite Hd, Hb; reflexivity).
    split; [exact HP|]. split; [|split; [reflexivity|exact Ht1]].
    constructor; cbn; rewrite ?repeat_length; auto.
    - exact (mean_len _ _ (cm_ok _ HP) Hxm).
    - unfold eye, mtab. rewrite map_length, seq_length. exact Hdd.
    - unfold eye, mtab. rewrite map_length, seq_length. exact Hdd.
  Qed.

  Lemma cma_lap P it s w s' c w' : CMAParamsOf A P -> CInv d s -> cma_step P it s w = (inl (s', c), w') ->
    CInv d s' /\ Forall (fun x => length x = cm_d P) (cv_valid (cma_view s')) /\
    exists evs arx raw, tr w' = tr w ++ evs /\ CGen P it (cma_view s) (cma_view s') c evs (mdiag (cs_C s)) arx raw.
  Proof.
    intros HP HI Hx. pose proof (cm_ok P HP) as HO.
    destruct (safe_cma_step d true xm xstd Pv Pe pv_ok (fun _ _ => Logic.I) Pc HEig P it s HO HI w) as (_ & _ & _ & HS).
    rewrite Hx in HS. destruct (HS _ eq_refl) as [H1 H2]. cbn [fst] in *. split; [exact H1|]. split.
    - rewrite (co_d _ _ _ _ _ _ HO). exact (cp_v _ _ _ _ _ H2).
    - destruct (wp_elim _ _ _ _ _ _ (cma_step_spec P (EnvOK_mode HE _) it s w) Hx) as (evs & arx & raw & Ht & _ & HC & _).
      exists evs, arx, raw. auto.
  Qed.

  (** C77 for cmaes.  With constraints="Penalize": if the objective returns NaN in generation [k], and generation [n] is the first
      one after the second whose mean lies outside the box, and it is generation [k] or one of the nineteen after it, then from
      generation [n] on every fitness is NaN, whatever the objective returns: so are the fun of the result and the fun of every
      callback from then on. *)
  Theorem C77_cmaes w a0 P s0 w0 k n g :
    cma_begin A (mkSt w [] a0) = (inl (P, s0), w0) ->
    let L := course (cma_drv P) (has_cb (caa A)) (fuel (a_maxiter (caa A))) 0 s0 w0 in
    1 <= k -> nth_error L (k - 1) = Some g -> NanSeen (l_before g) (l_after g) ->
    k <= n -> n <= k + 19 -> 2 < n ->
    (forall s, state_at s0 L (n - 1) s -> OutMean (cs_xmean s)) ->
    (forall m s, 2 < m -> m < n -> state_at s0 L (m - 1) s -> ~ OutMean (cs_xmean s)) ->
    (forall m g', n <= m -> nth_error L (m - 1) = Some g' -> Forall NotNum (cs_fit (l_state g'))) /\
    (forall res st', exec (cmaes_minimize A) w a0 = (inl res, st') ->
      ((Z.of_nat n <= r_nit res)%Z -> NotNum (r_fun res)) /\
      (forall X st, In (X, st) (cbs (tr st')) -> (Z.of_nat n <= cb_nit st)%Z -> NotNum (cb_fun st))).
  Proof.
    intros Hbeg L Hk Hg Hs Hkn Hn Hn2 Hout Hins.
    destruct (wp_elim _ _ _ _ _ _ (cma_begin_spec _) Hbeg) as (HP & HI & Hini & Ht). cbn [fst snd tr] in *.
    pose proof (cm_ok P HP) as HO. pose proof (co_d _ _ _ _ _ _ HO) as Hd.
    assert (Hm : cm_mode P <> Mpi).
    { intros Hm. pose proof (cpo_mode _ _ HP) as Hk'. rewrite Hm in Hk'. apply eval_kind_mpi in Hk'. exact (Hmpi Hk'). }
    assert (HK' : forall i, i < 20 -> (nN i <? nZ 20 + nZ 3 * nN (cm_d P) / nN (cm_p P))%num = true).
    { rewrite Hd, (cpo_p _ _ HP). exact HK. }
    assert (Hpost : forall it s w, d_post (cma_drv P) it s w = (inl s, w)) by reflexivity.
    assert (Hgood : forall s, CInv d s -> length (cv_xmean (cma_view s)) = cm_d P /\ length (mdiag (cs_C s)) = cm_d P).
    { intros s [H1 H2 H3 H4]. rewrite Hd. split; [exact H1|]. unfold mdiag. rewrite map_length, seq_length. exact H4. }
    assert (Hd1 : 1 <= cm_d P) by (rewrite Hd; exact Hr).
    assert (Hp1 : 1 <= cm_p P) by exact (co_p _ _ _ _ _ _ HO).
    split.
    - intros m g' Hnm Hg'.
      exact (proj1 (proj2 (course_spoilt HQ HE (cma_drv P) (has_cb (caa A)) P cma_view (fun s => mdiag (cs_C s)) (CInv d)
        Hpost Hgood (fun it s w s' c w' => cma_lap P it s w s' c w' HP) (fun s => eq_refl) (co_pen _ _ _ _ _ _ HO) Hm Hd1 Hp1 HK'
        s0 w0 _ HI Hini k n g Hk Hg Hs Hkn Hn Hn2 Hout Hins m g' Hnm Hg'))).
    - intros res st' Hx. unfold exec in Hx. rewrite cma_begins in Hx. unfold bind in Hx. rewrite Hbeg in Hx. cbn [fst snd] in Hx.
      refine (drive_spoilt HQ HE (cma_drv P) (has_cb (caa A)) P cma_view (fun s => mdiag (cs_C s)) (CInv d)
        Hpost Hgood (fun it s w s' c w' => cma_lap P it s w s' c w' HP) (fun s => eq_refl) (co_pen _ _ _ _ _ _ HO) Hm Hd1 Hp1 HK'
        s0 w0 _ HI Hini k n g res st' Hk Hg Hs Hkn Hn Hn2 Hout Hins _ _ Hx).
      + rewrite Ht. reflexivity.
      + intros it s w1 r w2 Hst.
        destruct (wp_elim _ _ _ _ _ _ (cma_step_spec P (EnvOK_mode HE _) it s w1) Hst) as (evs & arx & raw & Htr & _ & HC & _).
        rewrite Htr, cbs_app, (cg_cbs _ _ _ _ _ _ _ _ _ HC). apply app_nil_r.
  Qed.

  (** *** vdcma *)
  Lemma vd_begin_spec w : wp (vd_begin A) (fun Ps w' => CMAParamsOf A (fst Ps) /\ VInv d (snd Ps) /\
    pen_ini (vs_pen (snd Ps)) = true /\ tr w' = tr w) NF w.
  Proof.
    unfold vd_begin. apply wp_bind, wp_cma_check. intros w1 Hx0 Hsg Hmp Hcb.
    apply wp_bind, wp_cma_setup; [exact Hx0|].
    intros xmean P0 s1 Ht1 Hb1 Hxm HP Hd Hmx Hisg. cbn [tr argbuf] in Ht1, Hb1.
    eapply wp_quiet_NF; [apply quiet_randn_vec|]. intros z s2 Ht2 Hb2 Hz.
    apply wp_bind, wp_cma_alloc. intros nout ilim H1 H2 H3 H4 H5.
    specialize (HP nout ilim Hsg Hmp H1 H2 H3 H4 H5). apply wp_ret. cbn [fst snd vs_pen].
    assert (Hdd : cm_d P0 = d) by (rewrite Hd, Hb; reflexivity).
    split; [exact HP|]. split; [|split; [reflexivity|congruence]].
    constructor; cbn; rewrite ?repeat_length, ?map_length; auto; try (rewrite Hz; exact Hdd).
    exact (mean_len _ _ (cm_ok _ HP) Hxm).
  Qed.

  Lemma vd_lap P it s w s' c w' : CMAParamsOf A P -> VInv d s -> vd_step P it s w = (inl (s', c), w') ->
    VInv d s' /\ Forall (fun x => length x = cm_d P) (cv_valid (vd_view s')) /\
    exists evs arx raw, tr w' = tr w ++ evs /\
      CGen P it (vd_view s) (vd_view s') c evs (vd_diagC (cm_d P) (vs_dvec s) (vs_vvec s)) arx raw.
  Proof.
    intros HP HI Hx. pose proof (cm_ok P HP) as HO.
    destruct (safe_vd_step d true xm xstd Pv Pe pv_ok (fun _ _ => Logic.I) Pc P it s HO HI w) as (_ & _ & _ & HS).
    rewrite Hx in HS. destruct (HS _ eq_refl) as [H1 H2]. cbn [fst] in *. split; [exact H1|]. split.
    - rewrite (co_d _ _ _ _ _ _ HO). exact (cp_v _ _ _ _ _ H2).
    - destruct (wp_elim _ _ _ _ _ _ (vd_step_spec P (EnvOK_mode HE _) it s w) Hx) as (evs & arx & raw & Ht & _ & HC & _).
      exists evs, arx, raw. auto.
  Qed.

  (** C77 for vdcma. *)
  Theorem C77_vdcma w a0 P s0 w0 k n g :
    vd_begin A (mkSt w [] a0) = (inl (P, s0), w0) ->
    let L := course (vd_drv P) (has_cb (caa A)) (fuel (a_maxiter (caa A))) 0 s0 w0 in
    1 <= k -> nth_error L (k - 1) = Some g -> NanSeen (l_before g) (l_after g) ->
    k <= n -> n <= k + 19 -> 2 < n ->
    (forall s, state_at s0 L (n - 1) s -> OutMean (vs_xmean s)) ->
    (forall m s, 2 < m -> m < n -> state_at s0 L (m - 1) s -> ~ OutMean (vs_xmean s)) ->
    (forall m g', n <= m -> nth_error L (m - 1) = Some g' -> Forall NotNum (vs_fit (l_state g'))) /\
    (forall res st', exec (vdcma_minimize A) w a0 = (inl res, st') ->
      ((Z.of_nat n <= r_nit res)%Z -> NotNum (r_fun res)) /\
      (forall X st, In (X, st) (cbs (tr st')) -> (Z.of_nat n <= cb_nit st)%Z -> NotNum (cb_fun st))).
  Proof.
    intros Hbeg L Hk Hg Hs Hkn Hn Hn2 Hout Hins.
    destruct (wp_elim _ _ _ _ _ _ (vd_begin_spec _) Hbeg) as (HP & HI & Hini & Ht). cbn [fst snd tr] in *.
    pose proof (cm_ok P HP) as HO. pose proof (co_d _ _ _ _ _ _ HO) as Hd.
    assert (Hm : cm_mode P <> Mpi).
    { intros Hm. pose proof (cpo_mode _ _ HP) as Hk'. rewrite Hm in Hk'. apply eval_kind_mpi in Hk'. exact (Hmpi Hk'). }
    assert (HK' : forall i, i < 20 -> (nN i <? nZ 20 + nZ 3 * nN (cm_d P) / nN (cm_p P))%num = true).
    { rewrite Hd, (cpo_p _ _ HP). exact HK. }
    assert (Hpost : forall it s w, d_post (vd_drv P) it s w = (inl s, w)) by reflexivity.
    assert (Hgood : forall s, VInv d s -> length (cv_xmean (vd_view s)) = cm_d P /\ length (vd_diagC (cm_d P) (vs_dvec s) (vs_vvec s)) = cm_d P).
    { intros s [H1 H2 H3 H4 H5 H6 H7]. rewrite Hd. split; [exact H1|]. unfold vd_diagC, mdiag. rewrite map_length, seq_length.
      etransitivity; [apply mmul_len|]. etransitivity; [apply mmul_len|]. etransitivity; [apply mtab_len|exact H3]. }
    assert (Hd1 : 1 <= cm_d P) by (rewrite Hd; exact Hr).
    assert (Hp1 : 1 <= cm_p P) by exact (co_p _ _ _ _ _ _ HO).
    split.
    - intros m g' Hnm Hg'.
      exact (proj1 (proj2 (course_spoilt HQ HE (vd_drv P) (has_cb (caa A)) P vd_view (fun s => vd_diagC (cm_d P) (vs_dvec s) (vs_vvec s)) (VInv d)
        Hpost Hgood (fun it s w s' c w' => vd_lap P it s w s' c w' HP) (fun s => eq_refl) (co_pen _ _ _ _ _ _ HO) Hm Hd1 Hp1 HK'
        s0 w0 _ HI Hini k n g Hk Hg Hs Hkn Hn Hn2 Hout Hins m g' Hnm Hg'))).
    - intros res st' Hx. unfold exec in Hx. rewrite vd_begins in Hx. unfold bind in Hx. rewrite Hbeg in Hx. cbn [fst snd] in Hx.
      refine (drive_spoilt HQ HE (vd_drv P) (has_cb (caa A)) P vd_view (fun s => vd_diagC (cm_d P) (vs_dvec s) (vs_vvec s)) (VInv d)
        Hpost Hgood (fun it s w s' c w' => vd_lap P it s w s' c w' HP) (fun s => eq_refl) (co_pen _ _ _ _ _ _ HO) Hm Hd1 Hp1 HK'
        s0 w0 _ HI Hini k n g res st' Hk Hg Hs Hkn Hn Hn2 Hout Hins _ _ Hx).
      + rewrite Ht. reflexivity.
      + intros it s w1 r w2 Hst.
        destruct (wp_elim _ _ _ _ _ _ (vd_step_spec P (EnvOK_mode HE _) it s w1) Hst) as (evs & arx & raw & Htr & _ & HC & _).
        rewrite Htr, cbs_app, (cg_cbs _ _ _ _ _ _ _ _ _ HC). apply app_nil_r.
  Qed.
End Solvers.
