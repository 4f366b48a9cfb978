(** C59: how vdcma moves and reshapes its search distribution. *)
From Coq Require Import Permutation.
From Verif Require Import Base Num Env Common DE CPSO NA Mat CMAES VDCMA Hoare EvalRules Gen Steps Hist Runs
  CmaRun Best Inst HistFacts HistBest PropPop Laws Safe Feas CmaStop Chain Mcmc DimCma Trial Restart Explore Flight Adapt.

Section VAdapt.
  Context {N : Num} {E : Env N}.
  Local Open Scope num_scope.

  Local Notation "v '@' j" := (@nth T j v n0) (at level 9, no associativity).
  Local Notation row X i := (@nth (list T) i X nil).
  Local Notation "M '[.' i , j '.]'" := (@nth T j (@nth (list T) i M nil) n0) (at level 9).
  Local Notation lower rows j := (rows[. j, 0 .]).
  Local Notation upper rows j := (rows[. j, 1 .]).
  Local Notation "# n" := (nZ n) (at level 1).

  (** ** The law *)
  Definition Max (n : nat) (f : nat -> T) : T := vmax (map f (seq 0 n)).
  Definition Min (n : nat) (f : nat -> T) : T := vmin (map f (seq 0 n)).

  Record VRates (d mu : nat) (mueff cc c1 cmu : T) : Prop := {
    vr_mueff : mueff = nsq (Sum mu (Weight mu)) / Sum mu (fun k => nsq (Weight mu k));
    vr_cc : cc = (#4 + mueff / nN d) / (nN d + #4 + #2 * mueff / nN d);
    vr_c1 : c1 = (nN d - #5) / #6 * #2 / (nsq (nN d + nlit 13 (-1)) + mueff);
    vr_cmu : cmu = pymin (#1 - c1) ((nN d - #5) / #6 * #2 * (mueff - #2 + #1 / mueff) / (nsq (nN d + #2) + mueff)) }.

  (** A search distribution: mean, step size, smoothed success [succ], evolution path, and the
      covariance matrix diag [scale] (I + [dir] [dir]^T) diag [scale]; [move] is the last move of the
      mean, [moved] tells whether there was one. *)
  Record VDist := mkVDist {
    v_mean : vec; v_size : T; succ : T; v_path : vec; scale : vec; dir : vec; move : vec; moved : bool }.

  Record VShaped (d : nat) (S : VDist) : Prop := {
    vh_mean : length (v_mean S) = d; vh_path : length (v_path S) = d; vh_scale : length (scale S) = d;
    vh_dir : length (dir S) = d; vh_move : length (move S) = d }.

  Record VStart (A : CMAArgs) (rows : matrix) (S : VDist) : Prop := {
    vt_shape : VShaped (length rows) S;
    vt_mean : forall j, j < length rows ->
      match a_x0 (caa A) with
      | Some x => (v_mean S)@j = ((nd_vec x)@j - nlit 5 (-1) * (upper rows j + lower rows j))
                                 / (nlit 5 (-1) * (upper rows j - lower rows j))
      | None => exists r, (v_mean S)@j = #(-1) + (#1 - #(-1)) * fst (e_rand r)
      end;
    vt_size : v_size S = caa_sigma A;
    vt_succ : succ S = #0;
    vt_zero : forall j, j < length rows -> (v_path S)@j = #0 /\ (scale S)@j = #1;
    vt_dir : exists z, Forall israndn z /\ length z = length rows /\
      forall j, j < length rows -> (dir S)@j = z@j / nsqrt (nN (length rows));
    vt_moved : moved S = false }.

  (** Squared norm, norm and unit vector of [dir]. *)
  Definition Len2 (d : nat) (S : VDist) : T := Sum d (fun j => (dir S)@j * (dir S)@j).
  Definition Len (d : nat) (S : VDist) : T := nsqrt (Len2 d S).
  Definition Unit (d : nat) (S : VDist) (j : nat) : T := (dir S)@j / Len d S.

  (** A displacement (in units of the step size) drawn from the distribution. *)
  Definition Drawn (d : nat) (S : VDist) (y : vec) : Prop :=
    exists z, length z = d /\ Forall israndn z /\ forall j, j < d ->
      y@j = (scale S)@j * (z@j + (nsqrt (#1 + Len2 d S) - #1) * (Sum d (fun k => z@k * Unit d S k) * Unit d S j)).
  (** The displacements of one generation; after the first, two of them probe along the last move. *)
  Definition Sample (d p : nat) (S : VDist) (Y : matrix) : Prop :=
    length Y = p /\ Forall (fun y : list T => length y = d) Y /\
    (forall i, i < p -> moved S = false \/ 2 <= i -> Drawn d S (row Y i)) /\
    (moved S = true -> 2 <= p /\ exists z, length z = d /\ Forall israndn z /\
       let u j := (move S)@j / (scale S)@j in
       let m := Sum d (fun j => nsq (u j)) - nsq (Sum d (fun j => u j * (dir S)@j)) / (#1 + Len2 d S) in
       forall j, j < d ->
         Y[.0, j.] = Norm d z / nsqrt m * (move S)@j /\ Y[.1, j.] = #(-1) * (Norm d z / nsqrt m * (move S)@j)).

  (** The points of a generation, in standardised coordinates. *)
  Definition Points (d : nat) (S : VDist) (Y X : matrix) : Prop :=
    length X = length Y /\ Forall (fun x : list T => length x = d) X /\
    forall i j, i < length Y -> j < d -> X[.i, j.] = (v_mean S)@j + v_size S * Y[.i, j.].

  (** The diagonal of the covariance matrix. *)
  Definition Var (d : nat) (S : VDist) (j : nat) : T :=
    Prod d (Prod d (Diag (fun k => (scale S)@k))
                   (fun i k => (if Nat.eqb i k then #1 else #0) + (dir S)@i * (dir S)@k))
           (Diag (fun k => (scale S)@k)) j j.

  (** The natural gradient of the log-likelihood with respect to [dir] and [scale], for the
      accumulated statistics [p] and [q]. *)
  Definition Gradient (d : nat) (S : VDist) (p q gv gd : nat -> T) : Prop :=
    let vn := Unit d S in
    let vnn j := nsq (Unit d S j) in
    let v2 := Len2 d S in
    let mx := Max d vnn in
    let gamma := #1 / nsqrt (#1 + v2) in
    let alpha0 := nsqrt (nsq v2 + (#1 + v2) / mx * (#2 - gamma)) / (#2 + v2) in
    let alpha := if alpha0 <? #1 then alpha0 else #1 in
    let beta := if alpha0 <? #1 then (#4 - (#2 - gamma) / mx) / nsq (#1 + #2 / v2) else #0 in
    let b := #2 * nsq alpha - beta in
    let a j := #2 - (b + #2 * nsq alpha) * vnn j in
    let i j := vnn j / a j in
    let r j := p j - alpha / (#1 + v2) * ((#2 + v2) * q j * vn j - v2 * Sum d (fun k => vn k * q k) * vnn j) in
    let c := b * Sum d (fun k => r k * i k) / (#1 + b * Sum d (fun k => vnn k * i k)) in
    let s j := r j / a j - c * i j in
    (forall j, j < d -> gd j = (scale S)@j * s j) /\
    (forall j, j < d -> gv j =
       q j / Len d S - alpha / Len d S * ((#2 + v2) * (vn j * s j) - Sum d (fun k => s k * vnn k) * vn j)).

  (** One update, from the displacements [Y] and points [X] in the order [K] of their values. *)
  Record VAdapted (d mu p : nat) (Y X : matrix) (K : list nat) (S S' : VDist) : Prop := {
    va_shape : VShaped d S';
    va_law : forall mueff cc c1 cmu, VRates d mu mueff cc c1 cmu ->
      let x k j := X[.nth k K 0%nat, j.] in
      let y k j := Y[.nth k K 0%nat, j.] in
      let vn := Unit d S in
      let v2 := Len2 d S in
      let good := if moved S then succ S' <? nlit 5 (-1) else true in
      let dot u := Sum d (fun l => u l * vn l) in
      let u k j := y k j / (scale S)@j in
      let t j := (v_path S')@j / (scale S)@j in
      let pmu j := if cmu =? #0 then #0 else
        Sum mu (fun k => Weight mu k * (nsq (u k j) - v2 / (#1 + v2) * (dot (u k) * (u k j * vn j)) - #1)) in
      let qmu j := if cmu =? #0 then #0 else
        Sum mu (fun k => Weight mu k * (dot (u k) * u k j - nlit 5 (-1) * (nsq (dot (u k)) + #1 + v2) * vn j)) in
      let p1 j := if c1 =? #0 then #0 else nsq (t j) - v2 / (#1 + v2) * (dot t * t j * vn j) - #1 in
      let q1 j := if c1 =? #0 then #0 else dot t * t j - nlit 5 (-1) * (nsq (dot t) + #1 + v2) * vn j in
      let P j := if good then cmu * pmu j + c1 * p1 j else cmu * pmu j in
      let Q j := if good then cmu * qmu j + c1 * q1 j else cmu * qmu j in
      moved S' = true /\
      (forall j, j < d ->
         (move S')@j = Sum mu (fun k => Weight mu k * x k j) - Sum mu (Weight mu) * (v_mean S)@j /\
         (v_mean S')@j = (v_mean S)@j + (move S')@j) /\
      (if moved S
       then exists a b, a < p /\ nth a K 0%nat = 0%nat /\ b < p /\ nth b K 0%nat = 1%nat /\
            succ S' = succ S + nlit 3 (-1) * (#(Z.of_nat b - Z.of_nat a) / (nN p - #1) - succ S) /\
            v_size S' = v_size S * nexp (succ S' / nsqrt (nN d))
       else succ S' = succ S /\ v_size S' = v_size S) /\
      (forall j, j < d -> (v_path S')@j =
         (v_path S)@j * (#1 - cc)
         + (if good then nsqrt (cc * (#2 - cc) * mueff) * Sum mu (fun k => Weight mu k * y k j) else #0)) /\
      exists gv gd h,
        (if #0 <? cmu + c1
         then Gradient d S P Q gv gd /\
              h = pymin (pymin (#1) (nlit 7 (-1) * Len d S / nsqrt (Sum d (fun j => gv j * gv j))))
                        (nlit 7 (-1) * Min d (fun j => (scale S)@j / nabs (gd j)))
         else (forall j, j < d -> gv j = #0 /\ gd j = #0) /\ h = #1) /\
        forall j, j < d -> (dir S')@j = (dir S)@j + h * gv j /\ (scale S')@j = (scale S)@j + h * gd j }.

  Inductive VAdapt (A : CMAArgs) (rows : matrix) (mu p : nat) (serial : bool)
    : nat -> VDist -> Border -> option (vec * T) -> list (vec * T) -> list T -> option Z -> Prop :=
  | VA_start S B : VStart A rows S -> NoBorder (length rows) B -> VAdapt A rows mu p serial 0 S B None [] [] None
  | VA_generation n S B b l h Y X Z raw f K l' S' B' c :
      VAdapt A rows mu p serial n S B b l h None ->
      Sample (length rows) p S Y -> Points (length rows) S Y X ->
      Forall2 (Evaluated A rows) X Z -> length raw = p ->
      Permutation l' (combine Z raw) -> (serial = true -> l' = combine Z raw) ->
      Fitness A (length rows) mu p (Datatypes.S n) (v_mean S) (v_size S) (Var (length rows) S) X raw f B B' ->
      Ranking f K ->
      VAdapted (length rows) mu p Y X K S S' ->
      Verdict A (length rows) (Datatypes.S n) (v_mean S) (v_mean S') (v_size S') (v_path S')
              (Var (length rows) S) None f (h ++ [f@(nth 0 K 0%nat)]) c ->
      VAdapt A rows mu p serial (Datatypes.S n) S' B'
            (Some (row Z (nth 0 K 0%nat), f@(nth 0 K 0%nat))) (l ++ l') (h ++ [f@(nth 0 K 0%nat)]) c.

  (** ** Entries *)
  Lemma tab_list (u : list T) f n : length u = n -> (forall k, (k < n)%nat -> u@k = f k) -> u = map f (seq 0 n).
  Proof.
    intros H Hf. rewrite (list_tab u n H). apply map_ext_in. intros k Hk. apply in_seq in Hk. apply Hf. lia.
  Qed.
  Lemma vmax_Max (u : list T) f n : length u = n -> (forall k, (k < n)%nat -> u@k = f k) -> vmax u = Max n f.
  Proof. intros H Hf. unfold Max. rewrite <- (tab_list u f n H Hf). reflexivity. Qed.
  Lemma vmin_Min (u : list T) f n : length u = n -> (forall k, (k < n)%nat -> u@k = f k) -> vmin u = Min n f.
  Proof. intros H Hf. unfold Min. rewrite <- (tab_list u f n H Hf). reflexivity. Qed.
  Lemma vdot_Sum (u v : list T) f g n : length u = n -> length v = n -> (forall k, (k < n)%nat -> u@k = f k) ->
    (forall k, (k < n)%nat -> v@k = g k) -> vdot u v = Sum n (fun k => f k * g k).
  Proof.
    intros Hu Hv Hf Hg. rewrite (vdot_at u v n Hu Hv). apply Sum_ext. intros k Hk. rewrite Hf, Hg by exact Hk. reflexivity.
  Qed.
  Lemma map3_at {X} (f : T -> X -> T -> T) (u : list T) (x0 : X) (v : list X) (w : list T) n j :
    length u = n -> length v = n -> length w = n -> (j < n)%nat -> (map3 f u v w)@j = f u@j (nth j v x0) w@j.
  Proof. intros Hu Hv Hw Hj. apply map3_nth; vlia. Qed.

  Lemma upd_nth {X} i j (a x0 : X) l : i < length l -> nth j (upd i a l) x0 = if Nat.eqb j i then a else nth j l x0.
  Proof.
    intros H. destruct (Nat.eqb_spec j i) as [->|Hn]; [apply Base.upd_nth_same, H|apply upd_nth_other; congruence].
  Qed.

  (** The vector [u] has the entries [f]. *)
  Definition Is (n : nat) (u : list T) (f : nat -> T) : Prop := length u = n /\ forall k, (k < n)%nat -> u@k = f k.
  Lemma Is_self n (u : list T) : length u = n -> Is n u (fun j => u@j).
  Proof. intros H. split; [exact H|reflexivity]. Qed.
  Lemma Is_map n u f g : Is n u f -> Is n (map g u) (fun k => g (f k)).
  Proof.
    intros [Hl Hf]. split; [rewrite map_length; exact Hl|]. intros k Hk. rewrite (map_at g u n0 k) by vlia.
    rewrite Hf by exact Hk. reflexivity.
  Qed.
  Lemma Is_map2 n u v f g (h : T -> T -> T) : Is n u f -> Is n v g -> Is n (map2 h u v) (fun k => h (f k) (g k)).
  Proof.
    intros [Hl Hf] [Hm Hg]. split; [rewrite map2_length; vlia|]. intros k Hk. rewrite (map2_at h u v n) by assumption.
    rewrite Hf, Hg by exact Hk. reflexivity.
  Qed.
  Lemma Is_map3 n u v w f g h (F : T -> T -> T -> T) : Is n u f -> Is n v g -> Is n w h ->
    Is n (map3 F u v w) (fun k => F (f k) (g k) (h k)).
  Proof.
    intros [Hl Hf] [Hm Hg] [Ho Hh]. split; [rewrite map3_length; vlia|]. intros k Hk.
    rewrite (map3_at F u n0 v w n) by assumption. rewrite Hf, Hg, Hh by exact Hk. reflexivity.
  Qed.
  Lemma Is_repeat n x : Is n (repeat x n) (fun _ => x).
  Proof.
    split; [apply repeat_length|]. intros k Hk. rewrite nth_indep with (d' := x) by (rewrite repeat_length; exact Hk).
    apply nth_repeat.
  Qed.
  Lemma Is_vdot n u v f g : Is n u f -> Is n v g -> vdot u v = Sum n (fun k => f k * g k).
  Proof. intros [] []. apply vdot_Sum; assumption. Qed.
  Lemma Is_vsum n u f : Is n u f -> vsum u = Sum n f.
  Proof. intros [H1 H2]. rewrite (vsum_Sum u n H1). apply Sum_ext, H2. Qed.
  Lemma Is_ext n u f g : Is n u f -> (forall k, (k < n)%nat -> f k = g k) -> Is n u g.
  Proof. intros [H1 H2] H. split; [exact H1|]. intros k Hk. rewrite H2 by exact Hk. apply H, Hk. Qed.
  (** ** The update of the shape of the distribution *)
  Definition unit_v (v : list T) : list T := map (fun x => x / nsqrt (vdot v v)) v.

  Section Shape.
    Context (d mu : nat) (S : VDist) (HS : VShaped d S).
    Let vn := unit_v (dir S).
    Let vnn := map nsq vn.
    Let nv2 := vdot (dir S) (dir S).
    Let nv := nsqrt nv2.

    Lemma S_nv2 : nv2 = Len2 d S.
    Proof. apply (vdot_at (dir S) (dir S) d); apply (vh_dir _ _ HS). Qed.
    Lemma S_nv : nv = Len d S.
    Proof. unfold nv, Len. rewrite S_nv2. reflexivity. Qed.
    Lemma S_vn : Is d vn (Unit d S).
    Proof.
      unfold vn, unit_v. pose proof (Is_map _ _ _ (fun x => x / nsqrt (vdot (dir S) (dir S))) (Is_self d _ (vh_dir _ _ HS))) as H.
      eapply Is_ext; [exact H|]. intros k Hk. cbn beta. unfold Unit. rewrite <- S_nv. reflexivity.
    Qed.
    Lemma S_vnn : Is d vnn (fun j => nsq (Unit d S j)).
    Proof. apply (Is_map _ _ _ nsq S_vn). Qed.

    Lemma gradient_at (pvec qvec : list T) p q alpha avec bsca invavnn gv gd :
      vd_alpha vmax vnn nv2 = (alpha, avec, bsca, invavnn) ->
      ngv_ngd (scale S) vn vnn nv nv2 alpha avec bsca invavnn pvec qvec = (gv, gd) ->
      Is d pvec p -> Is d qvec q ->
      length gv = d /\ length gd = d /\ Gradient d S p q (fun j => gv@j) (fun j => gd@j).
    Proof.
      intros Ha Hg Hp Hq. unfold vd_alpha in Ha. cbn zeta in Ha.
      rewrite (vmax_Max vnn _ d (proj1 S_vnn) (proj2 S_vnn)), S_nv2 in Ha.
      set (mx := Max d _) in Ha. set (gamma := n1 / nsqrt (n1 + Len2 d S)) in Ha.
      set (alpha0 := nsqrt (nsq (Len2 d S) + (n1 + Len2 d S) / mx * (nZ 2 - gamma)) / (nZ 2 + Len2 d S)) in Ha.
      assert (HA : exists beta, alpha = (if alpha0 <? #1 then alpha0 else #1) /\
        beta = (if alpha0 <? #1 then (#4 - (#2 - gamma) / mx) / nsq (#1 + #2 / Len2 d S) else #0) /\
        bsca = #2 * nsq alpha - beta /\ avec = map (fun x => #2 - (bsca + #2 * nsq alpha) * x) vnn /\
        invavnn = vdiv vnn avec).
      { change (nZ 1) with n1. change (nZ 0) with n0.
        destruct (alpha0 <? n1); injection Ha as <- <- <- <-; eexists; repeat split; reflexivity. }
      clear Ha. destruct HA as (beta & HA & HB & Hb & Hav & Hi).
      pose proof (Is_map _ _ _ (fun x => #2 - (bsca + #2 * nsq alpha) * x) S_vnn) as Ia. cbn beta in Ia. rewrite <- Hav in Ia.
      pose proof (Is_map2 _ _ _ _ _ ndiv S_vnn Ia) as Ii. cbn beta in Ii. fold (vdiv vnn avec) in Ii. rewrite <- Hi in Ii.
      clear Hav Hi.
      unfold ngv_ngd in Hg. cbn zeta in Hg.
      rewrite (Is_vdot _ _ _ _ _ S_vn Hq), S_nv, S_nv2 in Hg.
      set (vq := Sum d (fun k => Unit d S k * q k)) in Hg.
      set (rvec := map3 _ pvec (combine qvec vn) vnn) in Hg.
      assert (Ir : Is d rvec (fun j => p j - alpha / (#1 + Len2 d S) *
        ((#2 + Len2 d S) * q j * Unit d S j - Len2 d S * vq * nsq (Unit d S j)))).
      { destruct Hp as [Hp1 Hp2]. destruct Hq as [Hq1 Hq2]. destruct S_vn as [Hv1 Hv2]. destruct S_vnn as [Hw1 Hw2].
        split; [unfold rvec; rewrite map3_length, combine_length; vlia|]. intros k Hk. unfold rvec.
        rewrite (map3_at _ pvec (n0, n0) (combine qvec vn) vnn d) by (rewrite ?combine_length; vlia).
        rewrite combine_nth by vlia. cbn [fst snd]. rewrite Hp2, Hq2, Hv2, Hw2 by exact Hk. reflexivity. }
      clearbody rvec.
      rewrite (Is_vdot _ _ _ _ _ Ir Ii), (Is_vdot _ _ _ _ _ S_vnn Ii) in Hg.
      set (c := bsca * _ / _) in Hg.
      set (svec := map3 _ rvec avec invavnn) in Hg.
      pose proof (Is_map3 _ _ _ _ _ _ _ (fun r a i => r / a - c * i) Ir Ia Ii) as Is_. fold svec in Is_. cbn beta in Is_.
      clearbody svec.
      rewrite (Is_vdot _ _ _ _ _ Is_ S_vnn) in Hg. injection Hg as Hgv Hgd.
      set (sv := Sum d _) in Hgv.
      pose proof (Is_map3 _ _ _ _ _ _ _ (fun q v s => q / Len d S - alpha / Len d S * ((#2 + Len2 d S) * (v * s) - sv * v)) Hq S_vn Is_) as Iv.
      pose proof (Is_map2 _ _ _ _ _ nmul (Is_self _ _ (vh_scale _ _ HS)) Is_) as Id.
      cbn beta in Iv, Id.
      assert (Iv' : Is d gv (fun k => q k / Len d S - alpha / Len d S * ((#2 + Len2 d S) * (Unit d S k *
        (((p k - alpha / (#1 + Len2 d S) * ((#2 + Len2 d S) * q k * Unit d S k - Len2 d S * vq * nsq (Unit d S k))) / (#2 - (bsca + #2 * nsq alpha) * nsq (Unit d S k))
         - c * (nsq (Unit d S k) / (#2 - (bsca + #2 * nsq alpha) * nsq (Unit d S k)))))) - sv * Unit d S k)))
        by (rewrite <- Hgv; exact Iv).
      unfold vmul in Hgd. rewrite Hgd in Id. clear Iv Hgv Hgd.
      split; [apply Iv'|]. split; [apply Id|].
      unfold Gradient. cbn zeta. change (nZ 1) with n1 in *. change (nZ 0) with n0 in *. fold mx. fold gamma. fold alpha0.
      rewrite <- HA, <- HB, <- Hb. fold vq. split.
      - exact (proj2 Id).
      - exact (proj2 Iv').
    Qed.

    Lemma update_at c1 cmu (ysel : list (list T)) (y : nat -> nat -> T) (pc : list T) cond vvec' dvec' :
      length ysel = mu -> (forall k, (k < mu)%nat -> Is d (row ysel k) (y k)) -> length pc = d ->
      vd_update vmax vmin d c1 cmu (cma_weights mu) ysel pc cond (scale S) (dir S) nv2 nv vn vnn = (vvec', dvec') ->
      let v2 := Len2 d S in
      let vn := Unit d S in
      let dot u := Sum d (fun l => u l * vn l) in
      let u k j := y k j / (scale S)@j in
      let t j := pc@j / (scale S)@j in
      let pmu j := if cmu =? #0 then #0 else
        Sum mu (fun k => Weight mu k * (nsq (u k j) - v2 / (#1 + v2) * (dot (u k) * (u k j * vn j)) - #1)) in
      let qmu j := if cmu =? #0 then #0 else
        Sum mu (fun k => Weight mu k * (dot (u k) * u k j - nlit 5 (-1) * (nsq (dot (u k)) + #1 + v2) * vn j)) in
      let p1 j := if c1 =? #0 then #0 else nsq (t j) - v2 / (#1 + v2) * (dot t * t j * vn j) - #1 in
      let q1 j := if c1 =? #0 then #0 else dot t * t j - nlit 5 (-1) * (nsq (dot t) + #1 + v2) * vn j in
      let P j := if cond then cmu * pmu j + c1 * p1 j else cmu * pmu j in
      let Q j := if cond then cmu * qmu j + c1 * q1 j else cmu * qmu j in
      length vvec' = d /\ length dvec' = d /\
      exists gv gd h,
        (if #0 <? cmu + c1
         then Gradient d S P Q gv gd /\
              h = pymin (pymin (#1) (nlit 7 (-1) * Len d S / nsqrt (Sum d (fun j => gv j * gv j))))
                        (nlit 7 (-1) * Min d (fun j => (scale S)@j / nabs (gd j)))
         else (forall j, j < d -> gv j = #0 /\ gd j = #0) /\ h = #1) /\
        forall j, j < d -> vvec'@j = (dir S)@j + h * gv j /\ dvec'@j = (scale S)@j + h * gd j.
    Proof.
      intros Hyl Hyr Hpc Hup. cbn zeta. change (nZ 1) with n1. change (nZ 0) with n0.
      unfold vd_update in Hup. destruct (vd_alpha vmax vnn nv2) as [[[alpha avec] bsca] invavnn] eqn:Hal.
      set (PQ := if cmu =? n0 then _ else _) in Hup.
      assert (HPQ : Is d (fst PQ) (fun j => if cmu =? n0 then n0 else
          Sum mu (fun k => Weight mu k * (nsq (y k j / (scale S)@j) - Len2 d S / (n1 + Len2 d S) *
            (Sum d (fun l => y k l / (scale S)@l * Unit d S l) * (y k j / (scale S)@j * Unit d S j)) - n1))) /\
        Is d (snd PQ) (fun j => if cmu =? n0 then n0 else
          Sum mu (fun k => Weight mu k * (Sum d (fun l => y k l / (scale S)@l * Unit d S l) * (y k j / (scale S)@j) -
            nlit 5 (-1) * (nsq (Sum d (fun l => y k l / (scale S)@l * Unit d S l)) + n1 + Len2 d S) * Unit d S j)))).
      { unfold PQ. destruct (cmu =? n0); [split; apply Is_repeat|]. unfold pq_mu. cbn zeta. cbn [fst snd].
        set (rw := map (pq_row vn nv2) (map (fun y => vdiv y (scale S)) ysel)).
        assert (Hrl : length rw = mu) by (unfold rw; rewrite !map_length; exact Hyl).
        assert (Hr : forall k, (k < mu)%nat -> nth k rw ([], []) = pq_row vn nv2 (vdiv (row ysel k) (scale S))).
        { intros k Hk. unfold rw. rewrite map_map.
          rewrite nth_indep with (d' := pq_row vn nv2 (vdiv [] (scale S))) by (rewrite map_length; vlia).
          apply (map_nth (fun x => pq_row vn nv2 (vdiv x (scale S)))). }
        clearbody rw.
        assert (Hu : forall k, (k < mu)%nat -> Is d (vdiv (row ysel k) (scale S)) (fun j => y k j / (scale S)@j)).
        { intros k Hk. apply (Is_map2 _ _ _ _ _ ndiv (Hyr k Hk) (Is_self _ _ (vh_scale _ _ HS))). }
        split; split; try apply vmat_len; intros j Hj.
        - rewrite (vmat_at d _ (map fst rw) mu) by (rewrite ?map_length; auto using weights_len).
          apply Sum_ext. intros k Hk. rewrite weights_at by exact Hk. f_equal.
          rewrite (map_row fst rw ([], []) k) by vlia. rewrite (Hr k Hk). unfold pq_row. cbn zeta. cbn [fst].
          rewrite (Is_vdot _ _ _ _ _ (Hu k Hk) S_vn), S_nv2.
          rewrite (proj2 (Is_map2 _ _ _ _ _ _ (Hu k Hk) S_vn) j Hj). reflexivity.
        - rewrite (vmat_at d _ (map snd rw) mu) by (rewrite ?map_length; auto using weights_len).
          apply Sum_ext. intros k Hk. rewrite weights_at by exact Hk. f_equal.
          rewrite (map_row snd rw ([], []) k) by vlia. rewrite (Hr k Hk). unfold pq_row. cbn zeta. cbn [snd].
          rewrite (Is_vdot _ _ _ _ _ (Hu k Hk) S_vn), S_nv2.
          rewrite (proj2 (Is_map2 _ _ _ _ _ _ (Hu k Hk) S_vn) j Hj). reflexivity. }
      destruct PQ as [pmu qmu]. cbn [fst snd] in HPQ. destruct HPQ as [Ipm Iqm].
      set (PQ := if c1 =? n0 then _ else _) in Hup.
      assert (HPQ : Is d (fst PQ) (fun j => if c1 =? n0 then n0 else nsq (pc@j / (scale S)@j) - Len2 d S / (n1 + Len2 d S) *
            (Sum d (fun l => pc@l / (scale S)@l * Unit d S l) * (pc@j / (scale S)@j) * Unit d S j) - n1) /\
        Is d (snd PQ) (fun j => if c1 =? n0 then n0 else Sum d (fun l => pc@l / (scale S)@l * Unit d S l) * (pc@j / (scale S)@j) -
            nlit 5 (-1) * (nsq (Sum d (fun l => pc@l / (scale S)@l * Unit d S l)) + n1 + Len2 d S) * Unit d S j)).
      { unfold PQ. destruct (c1 =? n0); [split; apply Is_repeat|]. unfold pq_one. cbn zeta. cbn [fst snd].
        assert (Ht : Is d (vdiv pc (scale S)) (fun j => pc@j / (scale S)@j))
          by apply (Is_map2 _ _ _ _ _ ndiv (Is_self _ _ Hpc) (Is_self _ _ (vh_scale _ _ HS))).
        rewrite (Is_vdot _ _ _ _ _ Ht S_vn), S_nv2. split.
        - match goal with |- Is _ (map2 ?h _ _) _ => exact (Is_map2 _ _ _ _ _ h Ht S_vn) end.
        - match goal with |- Is _ (map2 ?h _ _) _ => exact (Is_map2 _ _ _ _ _ h Ht S_vn) end. }
      destruct PQ as [p1 q1]. cbn [fst snd] in HPQ. destruct HPQ as [Ip1 Iq1]. cbn zeta in Hup.
      pose proof (Is_map _ _ _ (fun x => cmu * x) Ipm) as Ip. pose proof (Is_map _ _ _ (fun x => cmu * x) Iqm) as Iq.
      pose proof (Is_map _ _ _ (fun x => c1 * x) Ip1) as Ir. pose proof (Is_map _ _ _ (fun x => c1 * x) Iq1) as Is_.
      cbn beta in Ip, Iq, Ir, Is_.
      pose proof (Is_map2 _ _ _ _ _ nadd Ip Ir) as Ipp. pose proof (Is_map2 _ _ _ _ _ nadd Iq Is_) as Iqq. cbn beta in Ipp, Iqq.
      set (PQ := if cond then _ else _) in Hup.
      match goal with |- context [Gradient d S ?P ?Q] => assert (HPQ : Is d (fst PQ) P /\ Is d (snd PQ) Q); [|set (Pf := P) in *; set (Qf := Q) in *] end.
      { unfold PQ. destruct cond; cbn [fst snd]; split; assumption. }
      destruct PQ as [pvec qvec]. cbn [fst snd] in HPQ. destruct HPQ as [IP IQ]. clearbody Pf Qf.
      clear Ip Iq Ir Is_ Ipp Iqq Ipm Iqm Ip1 Iq1.
      destruct (n0 <? cmu + c1).
      - destruct (ngv_ngd (scale S) vn vnn nv nv2 alpha avec bsca invavnn pvec qvec) as [gv gd] eqn:Hg.
        destruct (gradient_at _ _ _ _ _ _ _ _ _ _ Hal Hg IP IQ) as (Hgv & Hgd & HG).
        injection Hup as Hv Hd.
        set (h := vd_upfactor _ _ _ _ _) in *.
        pose proof (Is_map2 _ _ _ _ _ nadd (Is_self _ _ (vh_dir _ _ HS)) (Is_map _ _ _ (fun x => h * x) (Is_self _ _ Hgv))) as Iv.
        pose proof (Is_map2 _ _ _ _ _ nadd (Is_self _ _ (vh_scale _ _ HS)) (Is_map _ _ _ (fun x => h * x) (Is_self _ _ Hgd))) as Id.
        cbn beta in Iv, Id. unfold vadd, vscale in Hv, Hd. rewrite Hv in Iv. rewrite Hd in Id. clear Hv Hd.
        split; [apply Iv|]. split; [apply Id|].
        exists (fun j => gv@j), (fun j => gd@j), h. split; [split; [exact HG|]|].
        + unfold h, vd_upfactor. cbn zeta. rewrite S_nv. rewrite (vdot_at gv gv d Hgv Hgv). f_equal. f_equal.
          apply vmin_Min.
          * unfold vdiv. rewrite map2_length, map_length. pose proof (vh_scale _ _ HS). vlia.
          * intros k Hk. exact (proj2 (Is_map2 _ _ _ _ _ ndiv (Is_self _ _ (vh_scale _ _ HS)) (Is_map _ _ _ nabs (Is_self _ _ Hgd))) k Hk).
        + intros j Hj. split; [apply (proj2 Iv j Hj)|apply (proj2 Id j Hj)].
      - injection Hup as Hv Hd.
        pose proof (Is_map2 _ _ _ _ _ nadd (Is_self _ _ (vh_dir _ _ HS)) (Is_map _ _ _ (fun x => n1 * x) (Is_repeat d n0))) as Iv.
        pose proof (Is_map2 _ _ _ _ _ nadd (Is_self _ _ (vh_scale _ _ HS)) (Is_map _ _ _ (fun x => n1 * x) (Is_repeat d n0))) as Id.
        cbn beta in Iv, Id. unfold vadd, vscale in Hv, Hd. rewrite Hv in Iv. rewrite Hd in Id. clear Hv Hd.
        split; [apply Iv|]. split; [apply Id|].
        exists (fun _ => n0), (fun _ => n0), n1. split; [split; [intros; split; reflexivity|reflexivity]|].
        intros j Hj. split; [apply (proj2 Iv j Hj)|apply (proj2 Id j Hj)].
    Qed.
  End Shape.
  Context (HE : EnvOK) (HEmp : EmptyShape).

  Section Step.
    Context (A : CMAArgs) (rows : matrix) (P : CMAParams).
    Context (Hb : a_bounds (caa A) = D2 2 rows) (HP : CMAParamsOf A P).
    Let d := length rows.
    Let p := cm_p P.
    Let mu := cm_mu P.
    Let serial := one_worker (a_workers (caa A)).
    Context (HM : cm_mode P <> Mpi) (Hmu : (mu <= p)%nat).

    Definition vdist_of (s : VDS) : VDist :=
      mkVDist (vs_xmean s) (vs_sigma s) (vs_ps s) (vs_pc s) (vs_dvec s) (vs_vvec s) (vs_dx s) (vs_inj s).
    Definition vbest_of (s : VDS) : option (vec * T) :=
      match vs_index s with
      | [] => None
      | _ => Some (cma_un P (nth (vd_best s) (vs_valid s) []), nth (vd_best s) (vs_fit s) n0)
      end.
    Definition VInv (it : Z) (s : VDS) (c : option Z) (st : St) : Prop :=
      (exists h, HistIs P it (vs_hist s) h /\
        VAdapt A rows mu p serial (Z.to_nat it) (vdist_of s) (border_of (vs_pen s) (vs_xold s)) (vbest_of s) (evals (tr st)) h c) /\
      VShaped d (vdist_of s) /\ length (pen_w (vs_pen s)) = d /\ length (vs_xold s) = d /\ (0 <= it)%Z /\
      vs_nv2 s = vdot (vs_vvec s) (vs_vvec s) /\ vs_nv s = nsqrt (vs_nv2 s) /\
      vs_vn s = unit_v (vs_vvec s) /\ vs_vnn s = map nsq (vs_vn s).

    Lemma V_d : cm_d P = d.
    Proof. rewrite (cpo_d _ _ HP), Hb. reflexivity. Qed.
    Lemma V_p : (1 <= p)%nat.
    Proof. unfold p. rewrite (cpo_p _ _ HP). pose proof (cpo_p1 _ _ HP). lia. Qed.

    Lemma sample_Sample s : VShaped d (vdist_of s) ->
      vs_nv2 s = vdot (vs_vvec s) (vs_vvec s) -> vs_nv s = nsqrt (vs_nv2 s) -> vs_vn s = unit_v (vs_vvec s) ->
      quiet (vd_sample P s) (fun Y => Sample d p (vdist_of s) Y).
    Proof.
      intros HS H2 Hv Hn. unfold vd_sample.
      pose proof (S_nv2 d _ HS) as E2. pose proof (S_vn d _ HS) as En.
      pose proof (vh_scale _ _ HS) as Hsc. pose proof (vh_dir _ _ HS) as Hdr. pose proof (vh_move _ _ HS) as Hmv.
      cbn [vdist_of dir scale move] in E2, En, Hsc, Hdr, Hmv. rewrite <- H2 in E2. rewrite <- Hn in En.
      eapply quiet_bind; [apply quiet_replicateM, quiet_randn_vec'|]. cbn beta. intros arz [Hl HF].
      cbn zeta. rewrite E2.
      set (g := fun z : list T => vmul (vs_dvec s) (vadd z (vscale (nsqrt (n1 + Len2 d (vdist_of s)) - n1)
                                   (vscale (vdot z (vs_vn s)) (vs_vn s))))).
      assert (Hg : forall z : list T, length z = cm_d P /\ Forall israndn z -> length (g z) = d /\ Drawn d (vdist_of s) (g z)).
      { intros z [Hz HFz]. rewrite V_d in Hz.
        pose proof (Is_map2 _ _ _ _ _ nmul (Is_self _ _ Hsc)
          (Is_map2 _ _ _ _ _ nadd (Is_self _ _ Hz) (Is_map _ _ _ (fun x => (nsqrt (n1 + Len2 d (vdist_of s)) - n1) * x)
            (Is_map _ _ _ (fun x => vdot z (vs_vn s) * x) En)))) as I. cbn beta in I.
        split; [apply I|]. exists z. split; [exact Hz|]. split; [exact HFz|]. intros j Hj.
        etransitivity; [apply (proj2 I j Hj)|]. rewrite (Is_vdot _ _ _ _ _ (Is_self _ _ Hz) En). reflexivity. }
      set (Y := map g arz).
      assert (HYl : length Y = p) by (unfold Y; rewrite map_length; exact Hl).
      assert (HYr : forall i, (i < p)%nat -> length (row Y i) = d /\ Drawn d (vdist_of s) (row Y i)).
      { intros i Hi. unfold Y. rewrite (map_row g arz [] i) by (unfold p in Hi; vlia). apply Hg.
        apply (Forall_nth_lt _ _ [] i HF). unfold p in Hi; vlia. }
      assert (HYF : Forall (fun y : list T => length y = d) Y).
      { apply (Forall_nth' _ _ (@nil T)). intros i Hi. apply HYr. vlia. }
      clearbody Y. clear g Hg. destruct (vs_inj s) eqn:Hinj.
      - eapply quiet_bind; [apply quiet_randn_vec'|]. cbn beta. intros z [Hz HFz]. rewrite V_d in Hz.
        eapply quiet_bind; [apply quiet_raise_if; discriminate|]. cbn beta. intros _ Hp2. apply Nat.ltb_ge in Hp2. fold p in Hp2.
        apply quiet_ret.
        set (dy := vscale _ (vs_dx s)).
        assert (Hdyl : length dy = d) by (unfold dy, vscale; rewrite map_length; exact Hmv).
        split; [rewrite !upd_length; exact HYl|]. split; [|split].
        + apply (Forall_nth' _ _ (@nil T)). intros i Hi. rewrite !upd_length in Hi.
          rewrite !upd_nth by (rewrite ?upd_length; vlia).
          destruct (Nat.eqb i 1) eqn:E1; [unfold vscale; rewrite map_length; exact Hdyl|].
          destruct (Nat.eqb i 0) eqn:E0; [exact Hdyl|]. apply (Forall_nth_lt _ _ (@nil T) i HYF). vlia.
        + intros i Hi [Hf|H2i]; [cbn [vdist_of moved] in Hf; congruence|].
          rewrite !upd_nth by (rewrite ?upd_length; vlia).
          destruct (Nat.eqb i 1) eqn:E1; [apply Nat.eqb_eq in E1; lia|].
          destruct (Nat.eqb i 0) eqn:E0; [apply Nat.eqb_eq in E0; lia|]. apply HYr. exact Hi.
        + intros _. split; [exact Hp2|]. exists z. split; [exact Hz|]. split; [exact HFz|]. cbn zeta. intros j Hj.
          assert (Hdya : forall k, (k < d)%nat -> dy@k =
             Norm d z / nsqrt (Sum d (fun j => nsq ((vs_dx s)@j / (vs_dvec s)@j))
               - nsq (Sum d (fun j => (vs_dx s)@j / (vs_dvec s)@j * (vs_vvec s)@j)) / (#1 + Len2 d (vdist_of s))) * (vs_dx s)@k).
          { intros k Hk. pose proof (Is_map2 _ _ _ _ _ ndiv (Is_self _ _ Hmv) (Is_self _ _ Hsc)) as Iu. cbn beta in Iu.
            fold (vdiv (vs_dx s) (vs_dvec s)) in Iu.
            unfold dy, vscale. rewrite (map_at _ (vs_dx s) n0 k) by vlia. f_equal. rewrite (vnorm_at z d Hz). f_equal. f_equal.
            rewrite (Is_vsum _ _ _ (Is_map _ _ _ nsq Iu)), (Is_vdot _ _ _ _ _ Iu (Is_self _ _ Hdr)). reflexivity. }
          split.
          * assert (E0 : row (upd 1 (vscale (nZ (-1)) dy) (upd 0 dy Y)) 0 = dy).
            { rewrite !upd_nth by (rewrite ?upd_length; vlia). reflexivity. }
            etransitivity; [exact (f_equal (fun r : list T => r@j) E0)|]. apply Hdya, Hj.
          * assert (E1 : row (upd 1 (vscale (nZ (-1)) dy) (upd 0 dy Y)) 1 = vscale (nZ (-1)) dy).
            { rewrite !upd_nth by (rewrite ?upd_length; vlia). reflexivity. }
            etransitivity; [exact (f_equal (fun r : list T => r@j) E1)|]. unfold vscale.
            etransitivity; [apply (map_at _ dy n0 j); vlia|]. cbn beta. f_equal. apply Hdya, Hj.
      - apply quiet_ret. split; [exact HYl|]. split; [exact HYF|]. split.
        + intros i Hi _. apply HYr, Hi.
        + cbn [vdist_of moved]. rewrite Hinj. discriminate.
    Qed.

    Lemma diag_Var s : VShaped d (vdist_of s) -> Is d (vd_diagC d (vs_dvec s) (vs_vvec s)) (Var d (vdist_of s)).
    Proof.
      intros HS. pose proof (vh_scale _ _ HS) as Hsc. pose proof (vh_dir _ _ HS) as Hdr. cbn [vdist_of dir scale] in Hsc, Hdr.
      unfold vd_diagC. set (D := diagm (vs_dvec s)). set (M := madd (eye d) (outer (vs_vvec s) (vs_vvec s))).
      assert (HDl : length D = d) by (unfold D, diagm, mtab; rewrite map_length, seq_length; exact Hsc).
      assert (HDs : Square d D).
      { unfold D, diagm. assert (Hsc' : @length T (vs_dvec s) = d) by exact Hsc. rewrite Hsc'. apply Square_mtab. }
      assert (HDa : forall i j, (i < d)%nat -> (j < d)%nat -> D[.i, j.] = Diag (fun k => (vs_dvec s)@k) i j).
      { intros i j Hi Hj. unfold D. apply diagm_at; vlia. }
      pose proof (Square_outer _ _ d Hdr Hdr) as HO. assert (Heye : Square d (eye d)) by apply Square_mtab.
      pose proof (Square_madd _ _ d Heye HO) as HMs. fold M in HMs.
      assert (HMa : forall i j, (i < d)%nat -> (j < d)%nat ->
        M[.i, j.] = (if Nat.eqb i j then #1 else #0) + (vs_vvec s)@i * (vs_vvec s)@j).
      { intros i j Hi Hj. unfold M. rewrite (madd_at _ _ d) by assumption. rewrite (outer_at _ _ d) by assumption.
        unfold eye. rewrite mtab_at by assumption. reflexivity. }
      clearbody D M.
      assert (HL1 : length (mmul d D M) = d) by (unfold mmul; rewrite map_length; exact HDl).
      assert (HL2 : length (mmul d (mmul d D M) D) = d) by (unfold mmul at 1; rewrite map_length; exact HL1).
      split; [unfold mdiag; rewrite map_length, seq_length; exact HL2|]. intros j Hj.
      unfold mdiag. rewrite tab_at by vlia. unfold mget.
      etransitivity; [apply (mmul_at d (mmul d D M) D d j j); [vlia|apply mmul_row_len; vlia|exact HDl|exact Hj]|].
      unfold Var. apply Prod_ext. intros k Hk. split; [|apply HDa; assumption].
      etransitivity; [apply (mmul_at d D M d j k); [vlia|apply (Square_row _ _ _ HDs Hj)|apply HMs|exact Hk]|].
      apply Prod_ext. intros l Hl. split; [apply HDa; assumption|apply HMa; assumption].
    Qed.

    Lemma index_of_in k l : In k l -> (index_of k l < length l)%nat /\ nth (index_of k l) l 0%nat = k.
    Proof.
      induction l as [|x l IH]; [intros []|]. cbn [index_of]. intros H.
      destruct (Nat.eqb_spec x k) as [->|Hn]; [cbn; split; [lia|reflexivity]|].
      destruct H as [H|H]; [congruence|]. destruct (IH H) as [H1 H2]. cbn. split; [lia|exact H2].
    Qed.

    Lemma VRates_of mueff cc c1 cmu : VRates d mu mueff cc c1 cmu ->
      cm_mueff P = mueff /\ cma_cc (nN (cm_d P)) (cm_mueff P) = cc /\
      vd_c1 (nN (cm_d P)) (cm_mueff P) = c1 /\ vd_cmu (nN (cm_d P)) (cm_mueff P) = cmu.
    Proof.
      intros [H1 H2 H3 H4].
      assert (Hm : cm_mueff P = mueff) by (rewrite (cpo_mueff _ _ HP), (cpo_w _ _ HP), mueff_sum; symmetry; exact H1).
      rewrite V_d, Hm. unfold vd_cmu, vd_c1, vd_cfactor. subst. repeat split; reflexivity.
    Qed.

    Lemma step_VAdapt it s st : VInv it s None st ->
      wp (vd_step P (it + 1) s) (fun r st' => VInv (it + 1) (fst r) (snd r) st' /\ vs_index (fst r) <> []) NF st.
    Proof.
      intros ((h & Hh & HA) & HS & Hpw & Hxo & Hit & Hn2 & Hn1 & Hvn & Hvnn).
      assert (Hmode : ModeOK (cm_mode P)) by apply (EnvOK_mode HE).
      unfold vd_step. cbn zeta.
      eapply wp_quiet_NF; [apply (sample_Sample s HS Hn2 Hn1 Hvn)|]. intros ary s1 Ht1 _ HY.
      pose proof HY as (Hl1 & HYF & _ & Hinj). cbn [vdist_of moved] in Hinj.
      pose proof (vh_mean _ _ HS) as Hml. cbn [vdist_of v_mean] in Hml.
      set (arx := map (fun y => vadd (vs_xmean s) (vscale (vs_sigma s) y)) ary).
      assert (HX : Points d (vdist_of s) ary arx).
      { assert (Hxi : forall y : list T, length y = d -> Is d (vadd (vs_xmean s) (vscale (vs_sigma s) y)) (fun j => (vs_xmean s)@j + vs_sigma s * y@j)).
        { intros y Hy. apply (Is_map2 _ _ _ _ _ nadd (Is_self _ _ Hml) (Is_map _ _ _ (fun x => vs_sigma s * x) (Is_self _ _ Hy))). }
        split; [unfold arx; rewrite map_length; reflexivity|]. split.
        - unfold arx. apply Forall_map. eapply Forall_impl; [|exact HYF]. cbn beta. intros y Hy. apply (Hxi y Hy).
        - intros i j Hi Hj. unfold arx. rewrite (map_row (fun y => vadd (vs_xmean s) (vscale (vs_sigma s) y)) ary [] i Hi).
          apply (Hxi (row ary i)); [|exact Hj]. apply (Forall_nth_lt _ _ (@nil T) i HYF Hi). }
      pose proof HX as (Hlx & Hlen & _). assert (Hlx' : length arx = p) by (transitivity (length ary); assumption).
      clearbody arx.
      apply wp_bind. apply (wp_cma_fitness P Hmode arx (vd_view s)).
      intros raw fit valid pen' s2 evs Hlr Hlf Hlv Ht2 _ _ _ Hev HF.
      assert (Hlr' : length raw = p) by (transitivity (length arx); assumption).
      assert (Hlf' : length fit = p) by (transitivity (length arx); assumption).
      assert (Hdg : Is d (vd_diagC (cm_d P) (vs_dvec s) (vs_vvec s)) (Var d (vdist_of s))) by (rewrite V_d; apply diag_Var, HS).
      replace (it + 1)%Z with (Z.of_nat (Datatypes.S (Z.to_nat it))) in HF by lia.
      destruct (fit_Fitness A rows P Hb HP Hmu (Datatypes.S (Z.to_nat it)) (vd_view s) _ _ arx valid raw fit pen' Hml Hxo (proj1 Hdg) (proj2 Hdg) Hpw Hlx'
                  Hlen Hlr' Hlf' HF) as (HFt & HEv & Hpl).
      apply wp_bind, wp_cma_record. intros r' _.
      apply wp_bind, wp_hist_set. intros Hhs.
      set (K := e_argsort fit).
      assert (HK : Ranking fit K) by apply argsort_Ranking, HE.
      assert (HKl : length K = p) by (unfold K; rewrite (argsort_len HE); exact Hlf').
      assert (HKlt : forall k, (k < p)%nat -> (nth k K 0 < p)%nat).
      { intros k Hk. rewrite <- Hlf'. apply (argsort_lt HE). vlia. }
      assert (HKin : forall k, (k < p)%nat -> In k K).
      { intros k Hk. destruct HK as [HKp _]. apply (Permutation_in _ (Permutation_sym HKp)), in_seq. vlia. }
      assert (Hsel : forall X : list (list T), length X = p -> Forall (fun x : list T => length x = d) X ->
        let sel := map (fun k => nth k X []) (firstn (cm_mu P) K) in
        length sel = mu /\ (forall k, (k < mu)%nat -> row sel k = row X (nth k K 0%nat)) /\
        (forall k, (k < mu)%nat -> length (row sel k) = d)).
      { intros X HXl HXF sel.
        assert (Hsela : forall k, (k < mu)%nat -> row sel k = row X (nth k K 0%nat)).
        { intros k Hk. unfold sel. etransitivity; [apply (map_row (fun k => nth k X []) (firstn (cm_mu P) K) 0%nat k)|].
          - rewrite firstn_length. vlia.
          - cbn beta. rewrite nth_firstn' by exact Hk. reflexivity. }
        split; [unfold sel; rewrite map_length, firstn_length; vlia|]. split; [exact Hsela|].
        intros k Hk. rewrite (Hsela k Hk). apply (Forall_nth_lt _ _ [] _ HXF). pose proof (HKlt k ltac:(vlia)). vlia. }
      destruct (Hsel arx Hlx' Hlen) as (Hsx1 & Hsx2 & Hsx3). destruct (Hsel ary Hl1 HYF) as (Hsy1 & Hsy2 & Hsy3). clear Hsel.
      set (selx := map (fun k => nth k arx []) (firstn (cm_mu P) K)) in *.
      set (sely := map (fun k => nth k ary []) (firstn (cm_mu P) K)).
      change (length sely = mu) in Hsy1. change (forall k, (k < mu)%nat -> row sely k = row ary (nth k K 0%nat)) in Hsy2.
      change (forall k, (k < mu)%nat -> length (row sely k) = d) in Hsy3. clearbody selx sely.
      assert (Hwl : length (cm_w P) = mu) by (rewrite (cpo_w _ _ HP); apply weights_len).
      assert (Hwm : forall (X : list (list T)), length X = mu ->
        Is d (vmat (cm_d P) (cm_w P) X) (fun j => Sum mu (fun k => Weight mu k * X[.k, j.]))).
      { intros X HXl. rewrite V_d. split; [apply vmat_len|]. intros j Hj. rewrite (vmat_at d _ X mu) by assumption.
        apply Sum_ext. intros k Hk. rewrite (cpo_w _ _ HP). f_equal. apply weights_at, Hk. }
      assert (Hws : vsum (cm_w P) = Sum mu (Weight mu)).
      { rewrite (cpo_w _ _ HP). fold mu. rewrite weights_tab. reflexivity. }
      set (dx := vsub _ _).
      assert (Idx : Is d dx (fun j => Sum mu (fun k => Weight mu k * arx[.nth k K 0%nat, j.]) - Sum mu (Weight mu) * (vs_xmean s)@j)).
      { eapply Is_ext; [apply (Is_map2 _ _ _ _ _ nsub (Hwm selx Hsx1) (Is_map _ _ _ (fun x => vsum (cm_w P) * x) (Is_self _ _ Hml)))|].
        intros j Hj. cbn beta. rewrite Hws. f_equal. apply Sum_ext. intros k Hk. rewrite (Hsx2 k Hk). reflexivity. }
      clearbody dx.
      assert (Im : Is d (vadd (vs_xmean s) dx) (fun j => (vs_xmean s)@j + dx@j)).
      { apply (Is_map2 _ _ _ _ _ nadd (Is_self _ _ Hml) (Is_self _ _ (proj1 Idx))). }
      set (m' := vadd (vs_xmean s) dx) in *. clearbody m'.
      destruct (vd_sigma P s K) as [[ps sigma] cond] eqn:Hsg.
      assert (Hcond : cond = if vs_inj s then ps <? nlit 5 (-1) else true).
      { unfold vd_sigma in Hsg. destruct (vs_inj s); injection Hsg as <- <- <-; reflexivity. }
      set (pc := if cond then _ else _).
      assert (Ipc : Is d pc (fun j => (vs_pc s)@j * (n1 - cma_cc (nN (cm_d P)) (cm_mueff P)) +
        (if cond then nsqrt (cma_cc (nN (cm_d P)) (cm_mueff P) * (#2 - cma_cc (nN (cm_d P)) (cm_mueff P)) * cm_mueff P) * Sum mu (fun k => Weight mu k * ary[.nth k K 0%nat, j.]) else #0))).
      { pose proof (vh_path _ _ HS) as Hpcl. cbn [vdist_of v_path] in Hpcl. unfold pc. destruct cond.
        - eapply Is_ext; [apply (Is_map2 _ _ _ _ _ nadd (Is_map _ _ _ (fun x => x * (n1 - cma_cc (nN (cm_d P)) (cm_mueff P))) (Is_self _ _ Hpcl))
            (Is_map _ _ _ (fun x => nsqrt (cma_cc (nN (cm_d P)) (cm_mueff P) * (#2 - cma_cc (nN (cm_d P)) (cm_mueff P)) * cm_mueff P) * x) (Hwm sely Hsy1)))|].
          intros j Hj. cbn beta. f_equal. f_equal. apply Sum_ext. intros k Hk. rewrite (Hsy2 k Hk). reflexivity.
        - eapply Is_ext; [apply (Is_map _ _ _ (fun x => x + n0) (Is_map _ _ _ (fun x => x * (n1 - cma_cc (nN (cm_d P)) (cm_mueff P))) (Is_self _ _ Hpcl)))|].
          intros j Hj. reflexivity. }
      clearbody pc.
      match goal with |- wp (let '(vvec, dvec) := ?c in _) _ _ _ => destruct c as [vvec dvec] eqn:Hup end.
      rewrite V_d, Hvnn, Hvn, Hn1, Hn2 in Hup. rewrite (cpo_w _ _ HP) in Hup. fold mu in Hup.
      assert (Hsy4 : forall k, (k < mu)%nat -> Is d (row sely k) (fun j => ary[.nth k K 0%nat, j.])).
      { intros k Hk. split; [apply Hsy3, Hk|]. intros j Hj. rewrite (Hsy2 k Hk). reflexivity. }
      pose proof (update_at d mu (vdist_of s) HS _ _ sely _ pc cond vvec dvec Hsy1 Hsy4 (proj1 Ipc) Hup) as HU.
      cbn zeta in HU. destruct HU as (Hvl & Hdl & HU).
      apply wp_ret. cbn [fst snd].
      destruct (Hev HM) as (l & -> & Hpm & Hser). clear Hev.
      match goal with |- VInv _ ?q ?c0 _ /\ _ => set (s3 := q); set (c3 := c0) end.
      assert (HAd : VAdapted d mu p ary arx K (vdist_of s) (vdist_of s3)).
      { constructor.
        - constructor; cbn [vdist_of v_mean v_path scale dir move s3 vs_xmean vs_pc vs_dvec vs_vvec vs_dx].
          + apply Im. + apply Ipc. + exact Hdl. + exact Hvl. + apply Idx.
        - intros mueff cc c1 cmu HR. destruct (VRates_of _ _ _ _ HR) as (E1 & E2 & E3 & E4). rewrite V_d in E2, E3, E4.
          rewrite E3, E4 in HU. rewrite V_d, E2, E1 in Ipc. rewrite <- E2 in Ipc. rewrite E2 in Ipc.
          cbn [vdist_of v_mean v_size succ v_path scale dir move moved s3 vs_xmean vs_sigma vs_ps vs_pc vs_dvec vs_vvec vs_dx vs_inj].
          cbn zeta. rewrite <- Hcond.
          split; [reflexivity|]. split; [intros j Hj; split; [apply (proj2 Idx j Hj)|apply (proj2 Im j Hj)]|]. split.
          { unfold vd_sigma in Hsg. destruct (vs_inj s).
            - destruct (Hinj eq_refl) as [Hp2 _].
              destruct (index_of_in 0 K (HKin 0%nat ltac:(lia))) as [Ha1 Ha2].
              destruct (index_of_in 1 K (HKin 1%nat ltac:(lia))) as [Hb1 Hb2].
              exists (index_of 0 K), (index_of 1 K). rewrite HKl in Ha1, Hb1. repeat (split; [assumption|]).
              rewrite V_d in Hsg. fold p in Hsg. injection Hsg as <- <- <-. split; reflexivity.
            - injection Hsg as <- <- <-. split; reflexivity. }
          split; [intros j Hj; apply (proj2 Ipc j Hj)|]. 
          exact HU. }
      assert (HKn : K <> []) by (intros HK0; pose proof V_p; rewrite HK0 in HKl; cbn in HKl; lia).
      split; [|exact HKn].
      assert (Hh' : HistIs P (it + 1) (vs_hist s3) (h ++ [fit@(nth 0 K 0%nat)])) by (apply (HistIs_set rows P Hmu); [exact Hit|lia|exact Hh]).
      assert (HV : Verdict A d (Datatypes.S (Z.to_nat it)) (v_mean (vdist_of s)) (v_mean (vdist_of s3)) (v_size (vdist_of s3)) (v_path (vdist_of s3))
                     (Var d (vdist_of s)) None fit (h ++ [fit@(nth 0 K 0%nat)]) c3).
      { unfold c3. revert Hh'. change (vs_hist s3) with (upd (Z.to_nat (it + 1 - 1)) fit@(nth 0 K 0%nat) (vs_hist s)).
        replace (it + 1)%Z with (Z.of_nat (Datatypes.S (Z.to_nat it))) by lia. rewrite V_d in Hdg |- *. intros Hh'.
        rewrite <- (last_last h fit@(nth 0 K 0%nat) n0) at 3.
        apply (converge_Verdict A rows P Hb HP Hmu); [lia|exact Hml|apply Im|apply Ipc|apply Hdg|apply Hdg|exact I|exact Hh']. }
      clearbody c3.
      split; [exists (h ++ [fit@(nth 0 K 0%nat)]); split; [exact Hh'|]|split; [apply (va_shape _ _ _ _ _ _ _ _ HAd)|split; [exact Hpl|split; [exact Hml|split; [lia|repeat split; reflexivity]]]]].
      replace (Z.to_nat (it + 1)) with (Datatypes.S (Z.to_nat it)) by lia.
      cbn [tr]. rewrite Ht2, evals_app, evals_ok, Ht1.
      change (border_of (vs_pen s3) (vs_xold s3)) with (border_of pen' (vs_xmean s)).
      unfold vbest_of, vd_best. unfold s3 at 2 3 4 5 6. cbn [vs_index vs_valid vs_fit].
      destruct K as [|k0 K'] eqn:HKe; [congruence|]. rewrite <- HKe in *. clear HKe.
      assert (Hv0 : cma_un P (nth (nth 0 K 0%nat) valid []) = row (map (cma_un P) valid) (nth 0 K 0%nat)).
      { symmetry. apply (map_row (cma_un P) valid [] (nth 0 K 0%nat)). pose proof (HKlt 0%nat V_p). vlia. }
      rewrite Hv0.
      eapply (VA_generation A rows mu p serial (Z.to_nat it) (vdist_of s) (border_of (vs_pen s) (vs_xold s)) (vbest_of s) (evals (tr st)) h ary arx
                (map (cma_un P) valid) raw fit K l (vdist_of s3)); eauto.
      intros Hs. apply Hser. apply (one_worker_serial _ _ _ _ (cpo_mode _ _ HP) HM Hs).
    Qed.

    Lemma start_VAdapt s st z : mean_init A P (vs_xmean s) -> vs_xold s = e_empty (cm_d P) ->
      vs_pc s = repeat n0 (cm_d P) -> vs_dvec s = repeat n1 (cm_d P) -> vs_dx s = repeat n0 (cm_d P) ->
      length z = cm_d P -> Forall israndn z -> vs_vvec s = map (fun x => x / nsqrt (nN (cm_d P))) z ->
      vs_ps s = n0 -> vs_inj s = false ->
      vs_nv2 s = vdot (vs_vvec s) (vs_vvec s) -> vs_nv s = nsqrt (vs_nv2 s) ->
      vs_vn s = unit_v (vs_vvec s) -> vs_vnn s = map nsq (vs_vn s) ->
      vs_sigma s = caa_sigma A -> vs_index s = [] ->
      vs_pen s = cma_init_pen (cm_d P) -> vs_hist s = repeat n0 (Z.to_nat (cm_maxiter P)) -> tr st = [] -> VInv 0 s None st.
    Proof.
      intros Hm Ho Hpc Hdv Hdx Hz HFz Hvv Hps Hij Hn2 Hn1 Hvn Hvnn Hs Hix Hpw Hhi Ht. rewrite V_d in *.
      assert (Iv : Is d (vs_vvec s) (fun j => z@j / nsqrt (nN d))).
      { rewrite Hvv. apply (Is_map _ _ _ (fun x => x / nsqrt (nN d)) (Is_self _ _ Hz)). }
      assert (HSh : VShaped d (vdist_of s)).
      { constructor; cbn [vdist_of v_mean v_path scale dir move]; rewrite ?Hpc, ?Hdv, ?Hdx, ?repeat_length; auto.
        - unfold mean_init in Hm. rewrite V_d in Hm. destruct (a_x0 (caa A)) as [x|]; [|apply Hm]. destruct Hm as [-> Hl].
          destruct (cpo_bounds _ _ HP) as (rows' & Hb' & -> & ->). rewrite Hb in Hb'. injection Hb' as <-.
          unfold standardize, cma_xm, cma_xstd, vdiv, vsub. rewrite !map2_length, !map_length. vlia.
        - apply Iv. }
      split; [|split; [exact HSh|split; [rewrite Hpw; apply repeat_length|split; [rewrite Ho; apply HEmp|split; [lia|auto]]]]].
      exists []. split.
      { rewrite Hhi. split; [|reflexivity]. cbn [app]. f_equal. change (Z.to_nat 0) with 0%nat. lia. }
      rewrite Ht. unfold vbest_of. rewrite Hix. apply VA_start.
      2: { rewrite Hpw, Ho. constructor; cbn [border_of cma_init_pen pen_w pen_hist pen_valid pen_ini b_weight b_spreads b_seen b_setting b_before]; auto.
           rewrite repeat_length. split; [reflexivity|]. intros j _. apply nth_repeat. }
      constructor.
      - exact HSh.
      - intros j Hj. cbn [vdist_of v_mean]. unfold mean_init in Hm. rewrite V_d in Hm.
        destruct (a_x0 (caa A)) as [x|].
        + destruct Hm as [-> Hl].
          destruct (cpo_bounds _ _ HP) as (rows' & Hb' & -> & ->). rewrite Hb in Hb'. injection Hb' as <-.
          match goal with |- context [cma_xm ?l ?u] => set (lo := l); set (up := u) end.
          assert (Hlo : length lo = d) by apply map_length. assert (Hup : length up = d) by apply map_length.
          assert (Hloa : lo@j = lower rows j) by apply (map_at (fun r : list T => r@0) rows [] j Hj).
          assert (Hupa : up@j = upper rows j) by apply (map_at (fun r : list T => r@1) rows [] j Hj).
          clearbody lo up. unfold standardize, cma_xm, cma_xstd, vdiv, vsub.
          rewrite (map2_at ndiv _ _ d) by (rewrite ?map2_length; vlia).
          rewrite (map2_at nsub _ _ d) by (rewrite ?map2_length; vlia).
          rewrite !(map2_at _ lo up d) by vlia. rewrite Hloa, Hupa. reflexivity.
        + destruct Hm as [Hl HF]. apply (Forall_nth_lt _ _ n0 j HF). vlia.
      - exact Hs.
      - exact Hps.
      - intros j Hj. cbn [vdist_of v_path scale]. rewrite Hpc, Hdv. split; [apply nth_repeat|].
        apply (proj2 (Is_repeat d n1) j Hj).
      - exists z. split; [exact HFz|]. split; [exact Hz|]. apply Iv.
      - exact Hij.
    Qed.
  End Step.

  Lemma VRates_exist d mu : exists mueff cc c1 cmu, VRates d mu mueff cc c1 cmu.
  Proof. do 4 eexists. constructor; reflexivity. Qed.

  (** ** C59 *)

  (** A run of vdcma that returns: from the initial distribution, every generation draws its points
      from the current distribution (the first two, after the first generation, along the last
      move), evaluates and ranks them, and the next distribution is given by the stated equations.
      The result is the best point of the last generation, and the run stops in the first generation
      that gives a reason to stop, for the first reason in the stated order (vdcma looks at the
      variances before the update, and not at the axes). *)
  Theorem C59_adaptation A rows k w a0 res st' :
    a_bounds (caa A) = D2 2 rows ->
    a_backend (caa A) <> Some "mpi"%string ->
    ntrunc (caa_muperc A * #(a_popsize (caa A))) = Some k -> (k <= a_popsize (caa A))%Z ->
    exec (vdcma_minimize A) w a0 = (inl res, st') ->
    exists S B h,
      VAdapt A rows (Z.to_nat k) (Z.to_nat (a_popsize (caa A))) (one_worker (a_workers (caa A)))
            (Z.to_nat (r_nit res)) S B (Some (r_x res, r_fun res)) (evals (tr st')) h (Some (r_status res)).
  Proof.
    intros Hb Hmpi Hk Hkp Hx.
    enough (H : wp (vdcma_minimize A) (fun res st' => exists S B h,
      VAdapt A rows (Z.to_nat k) (Z.to_nat (a_popsize (caa A))) (one_worker (a_workers (caa A)))
            (Z.to_nat (r_nit res)) S B (Some (r_x res, r_fun res)) (evals (tr st')) h (Some (r_status res))) anyx (mkSt w [] a0))
      by exact (wp_elim _ _ _ _ _ _ H Hx).
    clear Hx res st'. unfold vdcma_minimize. apply wp_bind, wp_weak, wp_cma_check. intros w1 Hx0 Hsg Hmp Hcb.
    unfold vdcma. cbn zeta. apply wp_bind, wp_weak, wp_cma_setup; [exact Hx0|].
    intros xmean P0 s1 Ht1 _ Hxm HP Hd Hmx Hisg. cbn [tr] in Ht1.
    eapply wp_quiet; [apply quiet_randn_vec'| |intros; exact I]. intros z s2 Ht2 _ [Hz HFz].
    apply wp_bind, wp_weak, wp_cma_alloc. intros nout ilim H1 H2 H3 H4 H5.
    specialize (HP nout ilim Hsg Hmp H1 H2 H3 H4 H5).
    match goal with |- wp (drive (vd_drv ?P) _ _ _ ?s) _ _ _ => set (P' := P) in *; set (s0 := s) end.
    assert (HM : cm_mode P' <> Mpi) by (apply (de_mode_not_mpi _ _ _ _ (cpo_mode _ _ HP) Hmpi)).
    assert (Hmu : cm_mu P' = Z.to_nat k).
    { destruct (cpo_mu _ _ HP) as (k' & Hk' & ->). rewrite Hk in Hk'. injection Hk' as <-. reflexivity. }
    pose proof (cpo_p _ _ HP) as Hp.
    assert (Hle : (cm_mu P' <= cm_p P')%nat) by (rewrite Hmu, Hp; lia).
    assert (HI : VInv A rows P' 0 s0 None s2).
    { apply (start_VAdapt A rows P' Hb HP Hle s0 s2 z); try reflexivity; auto.
      - rewrite (cpo_mx _ _ HP). reflexivity.
      - congruence. }
    eapply wp_post.
    - apply (drive_course (vd_drv P') (has_cb (caa A))
               (fun it s c st => VInv A rows P' it s c st /\ ((0 < it)%Z -> vs_index s <> []))).
      + intros it s st [Hi _]. eapply wp_post; [apply (step_VAdapt A rows P' Hb HP HM Hle it s st Hi)|].
        intros r st2 [H6 H7]. split; [exact H6|]. intros _. exact H7.
      + intros it s c w2 w' t b [(HA & HS & Hrest) Hne]. split; [|exact Hne]. split; [|split; [exact HS|exact Hrest]].
        cbn [tr] in *. rewrite evals_app. cbn [evals]. rewrite app_nil_r. exact HA.
      + intros it s st Hi. apply wp_ret. exact Hi.
      + split; [exact HI|]. lia.
    - intros res st' (it' & s' & [((h & _ & HA) & _) Hne] & Hlt & Hrx & Hrf & Hri). exists (vdist_of s'), (border_of (vs_pen s') (vs_xold s')), h.
      rewrite Hrx, Hrf, Hri. rewrite <- Hmu, <- Hp. cbn [vd_drv d_x d_fun]. unfold vbest_of in HA. specialize (Hne Hlt).
      destruct (vs_index s') as [|k0 K'] eqn:HK; [congruence|]. exact HA.
  Qed.
End VAdapt.
