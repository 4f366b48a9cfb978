(** C58: how cmaes moves and reshapes its search distribution. *)
From Coq Require Import Permutation.
From Verif Require Import Base Num Env Common DE CPSO NA Mat CMAES VDCMA Hoare EvalRules Gen Steps Hist Runs
  CmaRun Best Inst HistFacts HistBest PropPop Laws Safe Feas CmaStop Chain Mcmc DimCma Trial Restart Explore Flight.

Section Adapt.
  Context {N : Num} {E : Env N}.
  Local Open Scope num_scope.

  Local Notation "v '@' j" := (@nth T j v n0) (at level 9, no associativity).
  Local Notation row X i := (@nth (list T) i X nil).
  Local Notation "M '[.' i , j '.]'" := (@nth T j (@nth (list T) i M nil) n0) (at level 9).
  Local Notation lower rows j := (rows[. j, 0 .]).
  Local Notation upper rows j := (rows[. j, 1 .]).
  Local Notation "# n" := (nZ n) (at level 1).

  (** ** The law *)

  Definition Sum (n : nat) (f : nat -> T) : T := vsum (map f (seq 0 n)).
  (** The matrix product, and a diagonal matrix, by their entries. *)
  Definition Prod (n : nat) (a b : nat -> nat -> T) (i j : nat) : T := Sum n (fun k => a i k * b k j).
  Definition Diag (v : nat -> T) (i j : nat) : T := if Nat.eqb i j then v i else n0.
  Definition Norm (d : nat) (v : vec) : T := nsqrt (Sum d (fun j => v@j * v@j)).

  (** The weight of the k-th best (k = 0, 1, ...) of mu parents. *)
  Definition LogRank (mu k : nat) : T := nln (nN mu + nlit 5 (-1)) - nln (nN (S k)).
  Definition Weight (mu k : nat) : T := LogRank mu k / Sum mu (LogRank mu).

  (** The constants of a run in dimension [d] with [mu] parents. *)
  Record Rates (d mu : nat) (mueff cc cs c1 cmu damps chi : T) : Prop := {
    ra_mueff : mueff = nsq (Sum mu (Weight mu)) / Sum mu (fun k => nsq (Weight mu k));
    ra_cc : cc = (#4 + mueff / nN d) / (nN d + #4 + #2 * mueff / nN d);
    ra_cs : cs = (mueff + #2) / (nN d + mueff + #5);
    ra_c1 : c1 = #2 / (nsq (nN d + nlit 13 (-1)) + mueff);
    ra_cmu : cmu = pymin (#1 - c1) (#2 * (mueff - #2 + #1 / mueff) / (nsq (nN d + #2) + mueff));
    ra_damps : damps = #1 + #2 * pymax (#0) (nsqrt ((mueff - #1) / (nN d + #1)) - #1) + cs;
    ra_chi : chi = nsqrt (nN d) * (#1 - #1 / (#4 * nN d) + #1 / (#21 * #(Z.of_nat d * Z.of_nat d))) }.

  (** A search distribution: mean, step size, evolution paths, covariance matrix, its square roots
      [axes] * diag [scales] as of the evaluation [since], and the inverse root [isq]. *)
  Record Dist := mkDist {
    mean : vec; size : T; path_s : vec; path_c : vec; cov : matrix;
    axes : matrix; scales : vec; isq : matrix; since : Z }.

  Definition Square (d : nat) (M : matrix) : Prop := length M = d /\ Forall (fun r : list T => length r = d) M.

  Record Shaped (d : nat) (S : Dist) : Prop := {
    sh_mean : length (mean S) = d; sh_ps : length (path_s S) = d; sh_pc : length (path_c S) = d;
    sh_cov : Square d (cov S); sh_axes : Square d (axes S); sh_scales : length (scales S) = d;
    sh_isq : Square d (isq S) }.

  Record Start (A : CMAArgs) (rows : matrix) (S : Dist) : Prop := {
    st_shape : Shaped (length rows) S;
    st_mean : forall j, j < length rows ->
      match a_x0 (caa A) with
      | Some x => (mean S)@j = ((nd_vec x)@j - nlit 5 (-1) * (upper rows j + lower rows j))
                               / (nlit 5 (-1) * (upper rows j - lower rows j))
      | None => exists r, (mean S)@j = #(-1) + (#1 - #(-1)) * fst (e_rand r)
      end;
    st_size : size S = caa_sigma A;
    st_paths : forall j, j < length rows -> (path_s S)@j = #0 /\ (path_c S)@j = #0;
    st_one : forall i j, i < length rows -> j < length rows ->
      let one := if Nat.eqb i j then #1 else #0 in
      (cov S)[.i, j.] = one /\ (axes S)[.i, j.] = one /\ (isq S)[.i, j.] = one /\ (scales S)@j = #1;
    st_since : since S = 0%Z }.

  (** A sampled point, in standardised coordinates, and where it is evaluated. *)
  Definition Sampled (d : nat) (S : Dist) (x : vec) : Prop :=
    exists z, length z = d /\ Forall israndn z /\ length x = d /\
      forall j, j < d ->
        x@j = (mean S)@j + size S * Sum d (fun k => (axes S)[.j, k.] * ((scales S)@k * z@k)).

  Definition Clip (x : T) : T := let y := if x <? #(-1) then #(-1) else x in if #1 <? y then #1 else y.
  Definition Repaired (con : option string) (x : T) : T :=
    match con with None => x | Some _ => Clip x end.
  Definition Evaluated (A : CMAArgs) (rows : matrix) (x y : vec) : Prop :=
    length y = length rows /\
    forall j, j < length rows ->
      y@j = Repaired (a_constraints (caa A)) x@j * (nlit 5 (-1) * (upper rows j - lower rows j))
            + nlit 5 (-1) * (upper rows j + lower rows j).

  (** What constraints="Penalize" keeps between generations: a weight for every variable, the past
      spreads of the values, whether a spread other than zero was seen, whether the weights are
      still being set; and the mean one generation before. *)
  Record Border := mkBorder {
    b_weight : vec; b_spreads : list T; b_seen : bool; b_setting : bool; b_before : vec }.

  Record NoBorder (d : nat) (B : Border) : Prop := {
    nb_weight : length (b_weight B) = d /\ forall j, j < d -> (b_weight B)@j = #0;
    nb_spreads : b_spreads B = [#1]; nb_seen : b_seen B = false; nb_setting : b_setting B = true;
    nb_before : length (b_before B) = d }.

  Definition Outside (x : T) : bool := (x <? #(-1)) || (#1 <? x).
  (** The least positive number of a list. *)
  Definition LeastPositive (l : list T) (s : T) : Prop :=
    In s l /\ #0 <? s = true /\
    forall L : OrdLaws num_arith, forall x, In x l -> #0 <? x = true -> s <=? x = true.

  (** Generation [n] with mean [m], step size [sz] and variances [var], in which the objective took
      the values [raw].  The spread of the values (or the least positive one so far, if it is zero)
      joins the last ones.  While the weights are being set, all are 2.0002 times the median spread
      as soon as the mean is outside the box; the weight of a variable grows when the mean is far
      outside and was last moved further outside.  (Only the upper bound counts for the distance:
      below the box it is zero.) *)
  Record Enforced (d mu p n : nat) (m : vec) (sz : T) (var : nat -> T) (raw : vec) (B B' : Border) : Prop := {
    en_before : b_before B' = m;
    en_spread :
      let u := (e_percentile raw (#75) - e_percentile raw (#25)) / nN d / (Sum d var / nN d) / nsq sz in
      exists s l,
        b_spreads B' = (if nN (length l) <? #20 + #3 * nN d / nN p then l else tl l) ++ [s] /\
        if u =? #0 then LeastPositive (b_spreads B) s /\ l = b_spreads B /\ b_seen B' = b_seen B
        else s = u /\ l = (if b_seen B then b_spreads B else []) /\ b_seen B' = true;
    en_setting : b_setting B' = true <->
      b_setting B = true /\ ((exists j, j < d /\ Outside m@j = true) -> b_seen B' = true -> n <= 2);
    en_len : length (b_weight B') = d;
    en_weight : forall mueff, mueff = nsq (Sum mu (Weight mu)) / Sum mu (fun k => nsq (Weight mu k)) ->
      forall w : nat -> T,
      (if b_setting B && existsb (fun k => Outside m@k) (seq 0 d)
       then forall j, j < d -> w j = nlit 20002 (-4) * e_median (b_spreads B')
       else forall j, j < d -> w j = (b_weight B)@j) ->
      forall j, j < d ->
        let far := m@j - (if #1 <? m@j then #1 else m@j) in
        (b_weight B')@j =
          if Outside m@j && (#3 * pymax (#1) (nsqrt (nN d / mueff)) * sz * nsqrt (var j) <? nabs far)
             && (nsign far =? nsign (m@j - (b_before B)@j))
          then w j * npow (nlit 12 (-1)) (pymin (#1) (mueff / #10 / nN d)) else w j }.

  (** The values the points are ranked by: those of the objective, plus, with
      constraints="Penalize", the weighted squared distance to the box. *)
  Definition Fitness (A : CMAArgs) (d mu p n : nat) (m : vec) (sz : T) (var : nat -> T)
      (X : matrix) (raw f : vec) (B B' : Border) : Prop :=
    match a_constraints (caa A) with
    | None => f = raw
    | Some _ => Enforced d mu p n m sz var raw B B' /\ length f = length raw /\ forall i, i < length f ->
        f@i = raw@i + Sum d (fun j => nsq (Clip X[.i, j.] - X[.i, j.]) *
          ((b_weight B')@j / nexp (nlit 9 (-1) * (nln (var j) - Sum d (fun k => nln (var k)) / nN d))))
    end.

  Definition Ranking (f : vec) (K : list nat) : Prop :=
    Permutation K (seq 0 (length f)) /\
    forall L : OrdLaws num_arith, Forall isnum f ->
      forall a b, a < b -> b < length f -> f@(nth a K 0%nat) <=? f@(nth b K 0%nat) = true.

  (** One update, from the points [X] in the order [K] of their values; [nfev] evaluations so far. *)
  Record Adapted (d mu p : nat) (nfev : Z) (X : matrix) (K : list nat) (S S' : Dist) : Prop := {
    ad_shape : Shaped d S';
    ad_law : forall mueff cc cs c1 cmu damps chi, Rates d mu mueff cc cs c1 cmu damps chi ->
      let x k j := X[.nth k K 0%nat, j.] in
      let y k j := (x k j - (mean S)@j) / size S in
      let dx j := (mean S')@j - (mean S)@j in
      let hs := Norm d (path_s S') / nsqrt (#1 - npow (#1 - cs) (#2 * #nfev / nN p)) / chi
                  <? nlit 14 (-1) + #2 / (nN d + #1) in
      let C i j :=
        (cov S)[.i, j.] * (#1 - c1 - cmu)
        + cmu * Prod mu (Prod mu (fun i k => y k i) (Diag (Weight mu))) y i j
        + c1 * ((path_c S')@i * (path_c S')@j)
        + (if hs then #0 else c1 * cc * (#2 - cc) * (cov S)[.i, j.]) in
      (forall j, j < d -> (mean S')@j = Sum mu (fun k => Weight mu k * x k j)) /\
      (forall j, j < d -> (path_s S')@j =
         (#1 - cs) * (path_s S)@j
         + nsqrt (cs * (#2 - cs) * mueff) * Sum d (fun k => (isq S)[.j, k.] * dx k) / size S) /\
      (forall j, j < d -> (path_c S')@j =
         (path_c S)@j * (#1 - cc)
         + (if hs then nsqrt (cc * (#2 - cc) * mueff) * dx j / size S else #0)) /\
      size S' = size S * nexp (cs / damps * (Norm d (path_s S') / chi - #1)) /\
      if nN p / (c1 + cmu) / nN d / #10 <? #(nfev - since S)
      then since S' = nfev /\
           (forall i j, i < d -> j < d ->
              (cov S')[.i, j.] = if Nat.leb i j then C i j + #0 else #0 + C j i) /\
           exists lam V O, e_eigh (cov S') = Some (lam, V) /\ Ranking lam O /\
             (forall k, k < d -> (scales S')@k = nsqrt lam@(nth k O 0%nat)) /\
             (forall i k, i < d -> k < d -> (axes S')[.i, k.] = V[.i, nth k O 0%nat.]) /\
             (forall i j, i < d -> j < d -> (isq S')[.i, j.] =
                Prod d (Prod d (fun i k => (axes S')[.i, k.]) (Diag (fun k => #1 / (scales S')@k)))
                       (fun k j => (axes S')[.j, k.]) i j)
      else since S' = since S /\ axes S' = axes S /\ scales S' = scales S /\ isq S' = isq S /\
           (forall i j, i < d -> j < d -> (cov S')[.i, j.] = C i j) }.

  (** The greatest and the least entry of a list (NaN if it has one). *)
  Definition Greatest (l : list T) (m : T) : Prop := l <> [] ->
    In m l /\ forall L : OrdLaws num_arith,
      (Forall isnum l -> forall x, In x l -> x <=? m = true) /\ ((exists x, In x l /\ ~ isnum x) -> ~ isnum m).
  Definition Least (l : list T) (m : T) : Prop := l <> [] ->
    In m l /\ forall L : OrdLaws num_arith,
      (Forall isnum l -> forall x, In x l -> m <=? x = true) /\ ((exists x, In x l /\ ~ isnum x) -> ~ isnum m).
  Definition Some_of (d : nat) (f : nat -> bool) : bool := existsb f (seq 0 d).
  Definition All_of (d : nat) (f : nat -> bool) : bool := forallb f (seq 0 d).
  Definition FirstOf (l : list (Z * bool)) : option Z := option_map fst (find snd l).

  (** Why a run stops after generation [n], in the order in which the reasons are looked at: [m] and
      [m'] are the means before and after it, [sz] the step size, [pc] the evolution path, [var] the
      variances, [BD] the axes and their scales, [f] the values of the generation, [h] the best
      value of every generation so far. *)
  Definition Verdict (A : CMAArgs) (d n : nat) (m m' : vec) (sz : T) (pc : vec) (var : nat -> T)
      (BD : option (matrix * vec)) (f h : list T) (c : option Z) : Prop :=
    exists w hi lo hi' lo' top,
      let a := caa A in
      let best := last h (#0) in
      let recent := skipn (n - Z.to_nat w) h ++ [#0] in
      let all := f ++ h ++ repeat (#0) (Z.to_nat (a_maxiter a) - n) in
      ntrunc (#10 + #30 * nN d / #(a_popsize a)) = Some w /\
      Greatest recent hi /\ Least recent lo /\ Greatest all hi' /\ Least all lo' /\
      Greatest (map (fun j => nsqrt (var j)) (seq 0 d)) top /\
      exists noaxis cond,
        match BD with
        | None => noaxis = false /\ cond = false
        | Some (B, D) =>
            noaxis = All_of d (fun j => nabs (nlit 1 (-1) * sz * B[.j, (n mod d)%nat.] * D@((n mod d)%nat)) <? nlit 1 (-10)) /\
            exists big small, Greatest D big /\ Least D small /\ cond = (nlit 1 7 * small <? big)
        end /\
        c = FirstOf [
          ((-1)%Z, (a_maxiter a <=? Z.of_nat n)%Z);
          ((0)%Z, (nsqrt (Sum d (fun j => (m@j - m'@j) * (m@j - m'@j))) <=? a_xtol a) && (best <? a_ftol a));
          ((1)%Z, best <=? a_ftol a);
          ((-2)%Z, noaxis);
          ((-3)%Z, Some_of d (fun j => nlit 2 (-1) * sz * nsqrt (var j) <? nlit 1 (-10)));
          ((-4)%Z, cond);
          ((-5)%Z, (w <=? Z.of_nat n)%Z && (hi - lo <? nlit 1 (-10)));
          ((-6)%Z, Some_of d (fun j => nlit 1 3 * caa_sigma A <? sz * nsqrt (var j)));
          ((-7)%Z, (2 <? n)%nat && (hi' - lo' <? nlit 1 (-12)));
          ((-8)%Z, All_of d (fun j => sz * nabs pc@j <? nlit 1 (-11) * caa_sigma A)
               && (sz * top <? nlit 1 (-11) * caa_sigma A)) ].

  (** A run: the distribution [S], the penalty [B], the best point of the last generation and its value, all
      evaluations [l], the best values [h] and the status [c], after [n] generations. *)
  Inductive Adapt (A : CMAArgs) (rows : matrix) (mu p : nat) (serial : bool)
    : nat -> Dist -> Border -> option (vec * T) -> list (vec * T) -> list T -> option Z -> Prop :=
  | Ad_start S B : Start A rows S -> NoBorder (length rows) B -> Adapt A rows mu p serial 0 S B None [] [] None
  | Ad_generation n S B b l h X Y raw f K l' S' B' c :
      Adapt A rows mu p serial n S B b l h None ->
      length X = p -> Forall (Sampled (length rows) S) X ->
      Forall2 (Evaluated A rows) X Y -> length raw = p ->
      Permutation l' (combine Y raw) -> (serial = true -> l' = combine Y raw) ->
      Fitness A (length rows) mu p (Datatypes.S n) (mean S) (size S) (fun j => (cov S)[.j, j.]) X raw f B B' ->
      Ranking f K ->
      Adapted (length rows) mu p (Z.of_nat (Datatypes.S n * p)) X K S S' ->
      Verdict A (length rows) (Datatypes.S n) (mean S) (mean S') (size S') (path_c S')
              (fun j => (cov S')[.j, j.]) (Some (axes S', scales S')) f (h ++ [f@(nth 0 K 0%nat)]) c ->
      Adapt A rows mu p serial (Datatypes.S n) S' B'
            (Some (row Y (nth 0 K 0%nat), f@(nth 0 K 0%nat))) (l ++ l') (h ++ [f@(nth 0 K 0%nat)]) c.

  (** ** The vector operations by their entries *)
  Lemma map_at {X} (f : X -> T) (l : list X) (x0 : X) j : (j < length l)%nat -> (map f l)@j = f (nth j l x0).
  Proof. intros H. rewrite nth_indep with (d' := f x0) by (rewrite map_length; exact H). apply map_nth. Qed.
  Lemma map_row {X} (f : X -> list T) (l : list X) (x0 : X) j : (j < length l)%nat -> row (map f l) j = f (nth j l x0).
  Proof. intros H. rewrite nth_indep with (d' := f x0) by (rewrite map_length; exact H). apply map_nth. Qed.
  Lemma tab_at (f : nat -> T) n k : (k < n)%nat -> (map f (seq 0 n))@k = f k.
  Proof. intros H. rewrite (map_at f (seq 0 n) 0%nat k) by (rewrite seq_length; exact H). rewrite seq_nth by exact H. reflexivity. Qed.
  Lemma tab_row (f : nat -> list T) n k : (k < n)%nat -> row (map f (seq 0 n)) k = f k.
  Proof. intros H. rewrite (map_row f (seq 0 n) 0%nat k) by (rewrite seq_length; exact H). rewrite seq_nth by exact H. reflexivity. Qed.
  Lemma list_tab (u : list T) n : length u = n -> u = map (fun k => u@k) (seq 0 n).
  Proof.
    intros H. apply (nth_ext _ _ n0 n0); [rewrite map_length, seq_length; exact H|].
    intros k Hk. rewrite tab_at by vlia. reflexivity.
  Qed.
  Lemma vdot_at (u v : list T) n : length u = n -> length v = n -> vdot u v = Sum n (fun k => u@k * v@k).
  Proof.
    intros Hu Hv. unfold vdot, Sum. f_equal. unfold vmul.
    apply (nth_ext _ _ n0 n0); [rewrite map2_length, map_length, seq_length; vlia|].
    intros k Hk. rewrite map2_length in Hk. rewrite map2_nth with (a := n0) (b := n0) by vlia.
    rewrite tab_at by vlia. reflexivity.
  Qed.
  Lemma Sum_ext n f g : (forall k, (k < n)%nat -> f k = g k) -> Sum n f = Sum n g.
  Proof.
    intros H. unfold Sum. f_equal. apply map_ext_in. intros k Hk. apply in_seq in Hk. apply H. lia.
  Qed.
  Lemma vsum_Sum (u : list T) n : length u = n -> vsum u = Sum n (fun k => u@k).
  Proof. intros H. unfold Sum. rewrite <- (list_tab u n H). reflexivity. Qed.
  Lemma vnorm_at (u : list T) n : length u = n -> vnorm u = Norm n u.
  Proof. intros H. unfold vnorm, Norm. rewrite (vdot_at u u n H H). reflexivity. Qed.
  Lemma map2_at (f : T -> T -> T) (u v : list T) n j : length u = n -> length v = n -> (j < n)%nat ->
    (map2 f u v)@j = f u@j v@j.
  Proof. intros Hu Hv Hj. apply map2_nth; vlia. Qed.
  Lemma Square_row d (M : list (list T)) i : Square d M -> (i < d)%nat -> length (row M i) = d.
  Proof. intros [Hl HF] Hi. apply (Forall_nth_lt _ _ [] i HF). vlia. Qed.
  Lemma mvec_at (M : list (list T)) (v : list T) d j : Square d M -> length v = d -> (j < d)%nat ->
    (mvec M v)@j = Sum d (fun k => M[.j, k.] * v@k).
  Proof.
    intros HM Hv Hj. unfold mvec. etransitivity; [apply (map_at (fun r : list T => vdot r v) M []); destruct HM; vlia|].
    apply vdot_at; [apply (Square_row _ _ _ HM Hj)|exact Hv].
  Qed.
  Lemma col_at (M : list (list T)) j k : (k < length M)%nat -> (col M j)@k = M[.k, j.].
  Proof. intros H. unfold col. apply (map_at (fun r : list T => r@j) M [] k H). Qed.
  Lemma vmat_at c (w : list T) (M : list (list T)) n j : length w = n -> length M = n -> (j < c)%nat ->
    (vmat c w M)@j = Sum n (fun k => w@k * M[.k, j.]).
  Proof.
    intros Hw HM Hj. unfold vmat. rewrite tab_at by exact Hj. rewrite (vdot_at _ _ n Hw) by (unfold col; rewrite map_length; exact HM).
    apply Sum_ext. intros k Hk. rewrite col_at by vlia. reflexivity.
  Qed.
  Lemma mtab_at r c f i j : (i < r)%nat -> (j < c)%nat -> (mtab r c f)[.i, j.] = f i j.
  Proof.
    intros Hi Hj. unfold mtab. rewrite tab_row by exact Hi. apply tab_at, Hj.
  Qed.
  Lemma mtab_row_len r c f i : (i < r)%nat -> length (row (mtab r c f) i) = c.
  Proof.
    intros Hi. unfold mtab. rewrite tab_row by exact Hi.
    rewrite map_length. apply seq_length.
  Qed.
  Lemma Square_mtab d f : Square d (mtab d d f).
  Proof.
    split; [apply mtab_len|]. apply (Forall_nth' _ _ (@nil T)). intros i Hi. rewrite mtab_len in Hi.
    apply mtab_row_len, Hi.
  Qed.
  Lemma mtrans_at c (M : list (list T)) i j : (i < c)%nat -> (j < length M)%nat -> (mtrans c M)[.i, j.] = M[.j, i.].
  Proof.
    intros Hi Hj. unfold mtrans. rewrite tab_row by exact Hi. apply col_at, Hj.
  Qed.
  Lemma mtrans_row_len c (M : list (list T)) i : (i < c)%nat -> length (row (mtrans c M) i) = length M.
  Proof.
    intros Hi. unfold mtrans. rewrite tab_row by exact Hi. apply map_length.
  Qed.
  Lemma mmul_at c (a b : list (list T)) n i j : (i < length a)%nat -> length (row a i) = n -> length b = n -> (j < c)%nat ->
    (mmul c a b)[.i, j.] = Prod n (fun i k => a[.i, k.]) (fun k j => b[.k, j.]) i j.
  Proof.
    intros Hi Hl Hb Hj. unfold mmul. rewrite (map_row (fun r : list T => vmat c r b) a [] i Hi). apply vmat_at; assumption.
  Qed.
  Lemma mmul_row_len c (a b : list (list T)) i : (i < length a)%nat -> length (row (mmul c a b) i) = c.
  Proof. intros Hi. unfold mmul. rewrite (map_row (fun r : list T => vmat c r b) a [] i Hi). apply vmat_len. Qed.
  Lemma diagm_at (v : list T) i j : (i < length v)%nat -> (j < length v)%nat ->
    (diagm v)[.i, j.] = Diag (fun k => v@k) i j.
  Proof. intros Hi Hj. unfold diagm. rewrite mtab_at by assumption. reflexivity. Qed.
  Lemma madd_at (a b : list (list T)) d i j : Square d a -> Square d b -> (i < d)%nat -> (j < d)%nat ->
    (madd a b)[.i, j.] = a[.i, j.] + b[.i, j.].
  Proof.
    intros Ha Hb Hi Hj. unfold madd. rewrite map2_nth with (a := @nil T) (b := @nil T) by (destruct Ha, Hb; vlia).
    apply (map2_at nadd _ _ d); [apply (Square_row _ _ _ Ha Hi)|apply (Square_row _ _ _ Hb Hi)|exact Hj].
  Qed.
  Lemma Square_map (f : list T -> list T) d (M : list (list T)) : (forall r, length (f r) = length r) -> Square d M -> Square d (map f M).
  Proof.
    intros Hf [H1 H2]. split; [rewrite map_length; exact H1|]. apply Forall_map.
    eapply Forall_impl; [|exact H2]. cbn. intros r Hr. rewrite Hf. exact Hr.
  Qed.
  Lemma Square_madd (a b : list (list T)) d : Square d a -> Square d b -> Square d (madd a b).
  Proof.
    intros Ha Hb. split; [unfold madd; rewrite map2_length; destruct Ha, Hb; vlia|].
    apply (Forall_nth' _ _ (@nil T)). intros i Hi. unfold madd in *. rewrite map2_length in Hi.
    assert (Hi' : (i < d)%nat) by (destruct Ha, Hb; vlia).
    rewrite map2_nth with (a := @nil T) (b := @nil T) by (destruct Ha, Hb; vlia).
    unfold vadd. rewrite map2_length, (Square_row _ _ _ Ha Hi'), (Square_row _ _ _ Hb Hi'). apply Nat.min_id.
  Qed.
  Lemma entry_map (f : T -> T) (M : list (list T)) d i j : Square d M -> (i < d)%nat -> (j < d)%nat ->
    (map (map f) M)[.i, j.] = f M[.i, j.].
  Proof.
    intros HM Hi Hj. rewrite (map_row (map f) M [] i) by (destruct HM; vlia). apply map_at.
    rewrite (Square_row _ _ _ HM Hi). exact Hj.
  Qed.
  Lemma outer_at (u v : list T) d i j : length u = d -> length v = d -> (i < d)%nat -> (j < d)%nat ->
    (outer u v)[.i, j.] = u@i * v@j.
  Proof.
    intros Hu Hv Hi Hj. unfold outer. rewrite (map_row (fun x => vscale x v) u n0 i) by vlia. unfold vscale. apply (map_at _ v n0). vlia.
  Qed.
  Lemma Square_outer (u v : list T) d : length u = d -> length v = d -> Square d (outer u v).
  Proof.
    intros Hu Hv. split; [unfold outer; rewrite map_length; exact Hu|].
    unfold outer. apply Forall_map. apply Forall_forall. intros x _. unfold vscale. rewrite map_length. exact Hv.
  Qed.
  Lemma Square_mmul (a b : list (list T)) d : length a = d -> Square d (mmul d a b).
  Proof.
    intros Ha. split; [unfold mmul; rewrite map_length; exact Ha|]. apply (Forall_nth' _ _ (@nil T)). intros i Hi.
    apply mmul_row_len. unfold mmul in Hi. rewrite map_length in Hi. exact Hi.
  Qed.
  Lemma Prod_ext n a a' b b' i j : (forall k, (k < n)%nat -> a i k = a' i k /\ b k j = b' k j) ->
    Prod n a b i j = Prod n a' b' i j.
  Proof. intros H. apply Sum_ext. intros k Hk. destruct (H k Hk) as [-> ->]. reflexivity. Qed.

  Lemma weights_tab mu : cma_weights mu = map (Weight mu) (seq 0 mu).
  Proof.
    assert (Hr : raw_weights mu = map (LogRank mu) (seq 0 mu)).
    { unfold raw_weights. rewrite <- seq_shift, map_map. reflexivity. }
    unfold cma_weights. rewrite Hr. cbn zeta. rewrite map_map. reflexivity.
  Qed.
  Lemma weights_len mu : length (cma_weights mu) = mu.
  Proof. rewrite weights_tab, map_length. apply seq_length. Qed.
  Lemma weights_at mu k : (k < mu)%nat -> (cma_weights mu)@k = Weight mu k.
  Proof. intros H. rewrite weights_tab. apply tab_at, H. Qed.
  Lemma mueff_sum mu : cma_mueff (cma_weights mu) = nsq (Sum mu (Weight mu)) / Sum mu (fun k => nsq (Weight mu k)).
  Proof. unfold cma_mueff. rewrite weights_tab, map_map. reflexivity. Qed.

  Lemma cov_update_at d mu c1 cc cmu (w : list T) (y : list (list T)) (pc : list T) cond (C : list (list T)) :
    length w = mu -> length y = mu -> length pc = d -> Square d C ->
    Square d (cov_update d c1 cc cmu w y pc cond C) /\
    forall i j, (i < d)%nat -> (j < d)%nat ->
      (cov_update d c1 cc cmu w y pc cond C)[.i, j.] =
        C[.i, j.] * (#1 - c1 - cmu)
        + cmu * Prod mu (Prod mu (fun i k => y[.k, i.]) (Diag (fun k => w@k))) (fun k j => y[.k, j.]) i j
        + c1 * (pc@i * pc@j)
        + (if cond then #0 else c1 * cc * (#2 - cc) * C[.i, j.]).
  Proof.
    intros Hw Hy Hpc HC. unfold cov_update. cbn zeta.
    set (M := mmul d (mmul (length w) (mtrans d y) (diagm w)) y).
    assert (Htl : length (mtrans d y) = d) by (unfold mtrans; rewrite map_length; apply seq_length).
    assert (HMl : length (mmul (length w) (mtrans d y) (diagm w)) = d) by (unfold mmul; rewrite map_length; exact Htl).
    assert (HM : Square d M) by (apply Square_mmul, HMl).
    assert (HMa : forall i j, (i < d)%nat -> (j < d)%nat ->
      M[.i, j.] = Prod mu (Prod mu (fun i k => y[.k, i.]) (Diag (fun k => w@k))) (fun k j => y[.k, j.]) i j).
    { intros i j Hi Hj. unfold M. rewrite (mmul_at d _ y mu) by
        (try exact Hj; try exact Hy; rewrite ?mmul_row_len; rewrite ?HMl, ?Htl; auto).
      apply Prod_ext. intros k Hk. split; [|reflexivity].
      rewrite (mmul_at (length w) _ _ mu); try (rewrite ?mtrans_row_len; rewrite ?Htl; auto; vlia).
      - apply Prod_ext. intros l Hl. split; [apply mtrans_at; auto; vlia|apply diagm_at; vlia].
      - unfold diagm, mtab. rewrite map_length, seq_length. exact Hw. }
    clearbody M.
    assert (Hf : forall (k : T) (m : list (list T)), Square d m -> Square d (mscale_l k m)).
    { intros k m Hm. apply Square_map; [|exact Hm]. intros r. unfold vscale. apply map_length. }
    assert (Hg : forall (k : T) (m : list (list T)), Square d m -> Square d (mscale k m)).
    { intros k m Hm. apply Square_map; [|exact Hm]. intros r. apply map_length. }
    assert (Hfa : forall (k : T) (m : list (list T)) i j, Square d m -> (i < d)%nat -> (j < d)%nat ->
      (mscale_l k m)[.i, j.] = k * m[.i, j.]).
    { intros k m i j Hm Hi Hj. apply (entry_map (fun x => k * x) m d); assumption. }
    assert (Hga : forall (k : T) (m : list (list T)) i j, Square d m -> (i < d)%nat -> (j < d)%nat ->
      (mscale k m)[.i, j.] = m[.i, j.] * k).
    { intros k m i j Hm Hi Hj. apply (entry_map (fun x => x * k) m d); assumption. }
    pose proof (Square_outer pc pc d Hpc Hpc) as HO.
    assert (H1 : Square d (mscale (n1 - c1 - cmu) C)) by auto.
    assert (H2 : Square d (mscale_l cmu M)) by auto.
    assert (H3 : Square d (mscale_l c1 (outer pc pc))) by auto.
    assert (H4 : Square d (mscale_l (c1 * cc * (nZ 2 - cc)) C)) by auto.
    pose proof (Square_madd _ _ d H1 H2) as H5. pose proof (Square_madd _ _ d H5 H3) as H6.
    assert (H6a : forall i j, (i < d)%nat -> (j < d)%nat ->
      (madd (madd (mscale (n1 - c1 - cmu) C) (mscale_l cmu M)) (mscale_l c1 (outer pc pc)))[.i, j.] =
        C[.i, j.] * (#1 - c1 - cmu)
        + cmu * Prod mu (Prod mu (fun i k => y[.k, i.]) (Diag (fun k => w@k))) (fun k j => y[.k, j.]) i j
        + c1 * (pc@i * pc@j)).
    { intros i j Hi Hj. rewrite (madd_at _ _ d), (madd_at _ _ d), Hga, !Hfa, HMa, (outer_at pc pc d) by assumption.
      reflexivity. }
    destruct cond.
    - split; [apply Square_map; [intros r; apply map_length|exact H6]|].
      intros i j Hi Hj. rewrite (entry_map (fun x => x + n0) _ d) by assumption. rewrite H6a by assumption. reflexivity.
    - split; [apply Square_madd; assumption|].
      intros i j Hi Hj. rewrite (madd_at _ _ d) by assumption. rewrite H6a, Hfa by assumption. reflexivity.
  Qed.

  Lemma symm_at d (C : list (list T)) i j : (i < d)%nat -> (j < d)%nat ->
    (symm d C)[.i, j.] = if Nat.leb i j then C[.i, j.] + #0 else #0 + C[.j, i.].
  Proof. intros Hi Hj. unfold symm. rewrite mtab_at by assumption. reflexivity. Qed.

  (** ** The contracts used beyond EnvOK *)
  (** [np.linalg.eigh] of a d x d matrix: d eigenvalues and a d x d matrix. *)
  Definition EighShape : Prop := forall d C lam V, Square d C -> e_eigh C = Some (lam, V) ->
    length lam = d /\ Square d V.
  (** [np.empty(n)] has n entries. *)
  Definition EmptyShape : Prop := forall n, length (e_empty n) = n.

  Context (HE : EnvOK) (HEig : EighShape) (HEmp : EmptyShape).

  Lemma argsort_Ranking (f : vec) : Ranking f (e_argsort f).
  Proof.
    destruct (eo_argsort HE) as [H1 H2]. split; [apply H1|]. intros L HF a b Ha Hb. apply (H2 f HF a b Ha Hb).
  Qed.
  Lemma argsort_len (f : vec) : length (e_argsort f) = length f.
  Proof. destruct (argsort_Ranking f) as [H _]. rewrite (Permutation_length H). apply seq_length. Qed.
  Lemma argsort_lt (f : vec) k : (k < length f)%nat -> (nth k (e_argsort f) 0 < length f)%nat.
  Proof.
    intros Hk. destruct (argsort_Ranking f) as [H _].
    assert (Hin : In (nth k (e_argsort f) 0%nat) (e_argsort f)) by (apply nth_In; rewrite argsort_len; exact Hk).
    apply (Permutation_in _ H), in_seq in Hin. lia.
  Qed.

  Section Step.
    Context (A : CMAArgs) (rows : matrix) (P : CMAParams).
    Context (Hb : a_bounds (caa A) = D2 2 rows) (HP : CMAParamsOf A P).
    Let d := length rows.
    Let p := cm_p P.
    Let mu := cm_mu P.
    Let serial := one_worker (a_workers (caa A)).
    Context (HM : cm_mode P <> Mpi) (Hmu : (mu <= p)%nat).

    Definition dist_of (s : CMAS) : Dist :=
      mkDist (cs_xmean s) (cs_sigma s) (cs_ps s) (cs_pc s) (cs_C s) (cs_B s) (cs_D s) (cs_inv s) (cs_eigeneval s).
    Definition best_of (s : CMAS) : option (vec * T) :=
      match cs_index s with
      | [] => None
      | _ => Some (cma_un P (nth (cma_best s) (cs_valid s) []), nth (cma_best s) (cs_fit s) n0)
      end.
    Definition border_of (pn : PenState) (xold : vec) : Border :=
      mkBorder (pen_w pn) (pen_hist pn) (pen_valid pn) (pen_ini pn) xold.
    (** The array of the best values: those of the generations so far, then zeros. *)
    Definition HistIs (it : Z) (hist h : list T) : Prop :=
      hist = h ++ repeat n0 (Z.to_nat (cm_maxiter P) - Z.to_nat it) /\ length h = Z.to_nat it.
    Definition AInv (it : Z) (s : CMAS) (c : option Z) (st : St) : Prop :=
      (exists h, HistIs it (cs_hist s) h /\
        Adapt A rows mu p serial (Z.to_nat it) (dist_of s) (border_of (cs_pen s) (cs_xold s)) (best_of s) (evals (tr st)) h c) /\
      Shaped d (dist_of s) /\ length (pen_w (cs_pen s)) = d /\ length (cs_xold s) = d /\
      (0 <= it)%Z /\ cs_nfev s = (it * Z.of_nat p)%Z.

    Lemma A_d : cm_d P = d.
    Proof. rewrite (cpo_d _ _ HP), Hb. reflexivity. Qed.
    Lemma A_p : (1 <= p)%nat.
    Proof. unfold p. rewrite (cpo_p _ _ HP). pose proof (cpo_p1 _ _ HP). lia. Qed.

    Lemma sample_Sampled s : Shaped d (dist_of s) ->
      quiet (cma_sample P s) (fun X => length X = p /\ Forall (Sampled d (dist_of s)) X).
    Proof.
      intros HS. unfold cma_sample. apply quiet_replicateM.
      eapply quiet_bind; [apply quiet_randn_vec'|]. cbn beta. intros z [Hz HF]. apply quiet_ret.
      rewrite A_d in Hz. exists z. split; [exact Hz|]. split; [exact HF|].
      pose proof (sh_mean _ _ HS) as H1. pose proof (sh_axes _ _ HS) as H2. pose proof (sh_scales _ _ HS) as H3.
      cbn [dist_of mean axes scales size] in *.
      assert (Hm : length (vmul (cs_D s) z) = d) by (unfold vmul; rewrite map2_length; vlia).
      assert (Hv : length (vscale (cs_sigma s) (mvec (cs_B s) (vmul (cs_D s) z))) = d).
      { unfold vscale, mvec. rewrite !map_length. apply H2. }
      split; [unfold vadd; rewrite map2_length; vlia|]. intros j Hj.
      unfold vadd. rewrite (map2_at nadd _ _ d) by assumption. f_equal.
      unfold vscale. etransitivity; [apply (map_at _ _ n0); unfold mvec; rewrite map_length; destruct H2; vlia|].
      cbn beta. f_equal. rewrite (mvec_at _ _ d) by assumption. apply Sum_ext. intros k Hk. f_equal.
      unfold vmul. apply (map2_at nmul _ _ d); assumption.
    Qed.

    Lemma least_positive (l : vec) : filter (fun x => n0 <? x) l <> [] ->
      LeastPositive l (vmin (filter (fun x => n0 <? x) l)).
    Proof.
      intros Hne. pose proof (vmin_In _ Hne) as Hin. destruct (proj1 (filter_In _ _ _) Hin) as [H1 H2].
      split; [exact H1|]. split; [exact H2|]. intros L x Hx Hp. apply vmin_lb.
      - eapply lt_num_r; exact H2.
      - apply filter_In; split; assumption.
    Qed.

    Lemma any_out (m : vec) : length m = d ->
      existsb (fun b => b) (pen_ti m) = existsb (fun k => Outside m@k) (seq 0 d).
    Proof.
      intros Hl. unfold pen_ti. rewrite (list_tab m d Hl) at 1. rewrite map_map.
      induction (seq 0 d) as [|k l IH]; cbn; [reflexivity|]. rewrite IH. reflexivity.
    Qed.

    Lemma pen_Enforced n cv (dg : list T) var (raw : vec) pen' delta hist :
      length (cv_xmean cv) = d -> length (cv_xold cv) = d -> length dg = d ->
      (forall j, (j < d)%nat -> dg@j = var j) -> length (pen_w (cv_pen cv)) = d -> length (pen_w pen') = d ->
      ((delta = (e_percentile raw (#75) - e_percentile raw (#25)) / nN (cm_d P) / vmean dg / nsq (cv_sigma cv) /\
        delta =? n0 = false /\
        hist = (if pen_valid (cv_pen cv) then pen_hist (cv_pen cv) else []) /\ pen_valid pen' = true)
       \/ ((e_percentile raw (#75) - e_percentile raw (#25)) / nN (cm_d P) / vmean dg / nsq (cv_sigma cv) =? n0 = true /\
           hist = pen_hist (cv_pen cv) /\ filter (fun x => n0 <? x) hist <> [] /\
           delta = vmin (filter (fun x => n0 <? x) hist) /\ pen_valid pen' = pen_valid (cv_pen cv))) ->
      pen_hist pen' = (if nN (length hist) <? #20 + #3 * nN (cm_d P) / nN (cm_p P)
                       then hist ++ [delta] else tl hist ++ [delta]) ->
      pen_w pen' =
        (let w := if pen_ini (cv_pen cv) && existsb (fun b => b) (pen_ti (cv_xmean cv))
                  then repeat (nlit 20002 (-4) * e_median (pen_hist pen')) (cm_d P)
                  else pen_w (cv_pen cv) in
         if existsb (fun b => b) (pen_ti (cv_xmean cv))
         then pen_grow (cm_d P) (cm_mueff P)
                (pen_idx (cm_d P) (cm_mueff P) (cv_sigma cv) dg (cv_xmean cv) (cv_xold cv)) w
         else w) ->
      pen_ini pen' = pen_ini (cv_pen cv) &&
        negb (existsb (fun b => b) (pen_ti (cv_xmean cv)) && (pen_valid pen' && (2 <? Z.of_nat n)%Z)) ->
      Enforced d mu p n (cv_xmean cv) (cv_sigma cv) var raw
        (border_of (cv_pen cv) (cv_xold cv)) (border_of pen' (cv_xmean cv)).
    Proof.
      intros Hm Ho Hdl Hda Hw Hw' Hd Hh Hpw Hi.
      assert (Hmean : vmean dg = Sum d var / nN d).
      { unfold vmean. rewrite Hdl, (vsum_Sum dg d Hdl). f_equal. apply Sum_ext, Hda. }
      rewrite A_d in *. rewrite Hmean in *. fold p in Hh. rewrite (any_out _ Hm) in *.
      set (any := existsb _ _) in *.
      constructor; cbn [border_of b_weight b_spreads b_seen b_setting b_before]; auto.
      - exists delta, hist. split; [rewrite Hh; destruct (_ <? _); reflexivity|].
        destruct Hd as [(Hd1 & Hd2 & Hd3 & Hd4)|(Hd1 & Hd2 & Hd3 & Hd4 & Hd5)].
        + rewrite <- Hd1. change (#0) with n0. rewrite Hd2. auto.
        + change (#0) with n0. rewrite Hd1. split; [|auto]. rewrite Hd4, Hd2 in *. apply least_positive, Hd3.
      - rewrite Hi. rewrite andb_true_iff, negb_true_iff. apply and_iff_compat_l.
        assert (Ha : any = true <-> exists j, (j < d)%nat /\ Outside (cv_xmean cv)@j = true).
        { unfold any. rewrite existsb_exists. split; intros (j & H1 & H2); exists j; (split; [|exact H2]).
          - apply in_seq in H1. lia.
          - apply in_seq. lia. }
        rewrite <- Ha. destruct any, (pen_valid pen'); cbn [andb]; [|split; congruence..].
        rewrite Z.ltb_ge. split; [intros; lia|]. intros H. specialize (H eq_refl eq_refl). lia.
      - intros mueff Hmu' w Hw0 j Hj.
        assert (Hme : cm_mueff P = mueff) by (rewrite (cpo_mueff _ _ HP), (cpo_w _ _ HP), mueff_sum; symmetry; exact Hmu').
        rewrite Hme in Hpw. cbn zeta in Hpw. cbn zeta. cbn [border_of b_weight b_spreads b_seen b_setting b_before] in Hw0. fold any in Hw0.
        set (wv := if pen_ini (cv_pen cv) && any then _ else _) in Hpw.
        assert (Hwl : length wv = d) by (unfold wv; destruct (_ && _); [apply repeat_length|exact Hw]).
        assert (Hwa : wv@j = w j).
        { unfold wv. destruct (pen_ini (cv_pen cv) && any); rewrite (Hw0 j Hj); [|reflexivity].
          rewrite nth_indep with (d' := nlit 20002 (-4) * e_median (pen_hist pen')) by (rewrite repeat_length; exact Hj).
          apply nth_repeat. }
        clearbody wv. rewrite Hpw. destruct any eqn:Hany.
        + unfold pen_grow, pen_idx. set (idx := map3 _ _ _ _).
          assert (Hil : length idx = d).
          { unfold idx. rewrite map3_length, !combine_length. unfold pen_ti, pen_tx. rewrite !map_length. vlia. }
          rewrite map2_nth with (a := false) (b := n0) by vlia. rewrite Hwa.
          assert (Hix : nth j idx false =
            Outside (cv_xmean cv)@j && (#3 * pymax (#1) (nsqrt (nN d / mueff)) * cv_sigma cv * nsqrt (var j) <?
               nabs ((cv_xmean cv)@j - (if #1 <? (cv_xmean cv)@j then #1 else (cv_xmean cv)@j)))
             && (nsign ((cv_xmean cv)@j - (if #1 <? (cv_xmean cv)@j then #1 else (cv_xmean cv)@j))
                 =? nsign ((cv_xmean cv)@j - (cv_xold cv)@j))).
          { unfold idx. rewrite map3_nth with (a := (false, (n0, n0))) (b := n0) (c := n0)
              by (rewrite ?combine_length; unfold pen_ti, pen_tx; rewrite ?map_length; vlia).
            rewrite !combine_nth by (rewrite ?combine_length; unfold pen_ti, pen_tx; rewrite ?map_length; vlia).
            cbn [fst snd]. rewrite (Hda j Hj). unfold pen_ti, pen_tx.
            rewrite nth_indep with (d' := Outside n0) (l := map _ _) by (rewrite map_length; vlia).
            rewrite (map_nth Outside). rewrite (map_at _ (cv_xmean cv) n0 j) by vlia. reflexivity. }
          rewrite Hix. reflexivity.
        + assert (Hout : Outside (cv_xmean cv)@j = false).
          { destruct (Outside (cv_xmean cv)@j) eqn:E1; [|reflexivity]. exfalso.
            assert (H : any = true); [|congruence]. unfold any. apply existsb_exists. exists j. split; [apply in_seq; lia|exact E1]. }
          rewrite Hout. cbn [andb]. exact Hwa.
    Qed.

    Lemma fit_Fitness n cv (dg : list T) var arx valid raw fit pen' :
      length (cv_xmean cv) = d -> length (cv_xold cv) = d -> length dg = d -> (forall j, (j < d)%nat -> dg@j = var j) -> length (pen_w (cv_pen cv)) = d ->
      length arx = p -> Forall (fun x : list T => length x = d) arx -> length raw = p -> length fit = p ->
      FitOf P (Z.of_nat n) cv dg arx valid raw fit pen' ->
      Fitness A d mu p n (cv_xmean cv) (cv_sigma cv) var arx raw fit
        (border_of (cv_pen cv) (cv_xold cv)) (border_of pen' (cv_xmean cv)) /\ Forall2 (Evaluated A rows) arx (map (cma_un P) valid) /\
      length (pen_w pen') = d.
    Proof.
      intros Hxl Ho Hml Hda Hw Hl Hlen Hr Hf HF.
      destruct (cpo_bounds _ _ HP) as (rows' & Hb' & Hxm & Hxs). rewrite Hb in Hb'. injection Hb' as <-.
      assert (Hun : forall x : list T, length x = d ->
        length (cma_un P x) = d /\ forall j, (j < d)%nat -> (cma_un P x)@j =
          x@j * (nlit 5 (-1) * (upper rows j - lower rows j)) + nlit 5 (-1) * (upper rows j + lower rows j)).
      { intros x Hx. unfold cma_un, unstandardize. rewrite Hxm, Hxs.
        match goal with |- context [cma_xm ?l ?u] => set (lo := l); set (up := u) end.
        unfold cma_xm, cma_xstd.
        assert (Hlo : length lo = d) by apply map_length. assert (Hup : length up = d) by apply map_length.
        assert (Hloa : forall j, (j < d)%nat -> lo@j = lower rows j).
        { intros j Hj. apply (map_at (fun r : list T => r@0) rows [] j Hj). }
        assert (Hupa : forall j, (j < d)%nat -> up@j = upper rows j).
        { intros j Hj. apply (map_at (fun r : list T => r@1) rows [] j Hj). }
        clearbody lo up.
        assert (Hl2 : forall f : T -> T -> T, length (map2 f lo up) = d) by (intros f; rewrite map2_length; vlia).
        assert (Hl3 : forall f, length (vmul x (map2 f lo up)) = d) by (intros f; unfold vmul; rewrite map2_length, Hl2; vlia).
        split; [unfold vadd, vmul; rewrite !map2_length; vlia|].
        intros j Hj. unfold vadd. rewrite (map2_at nadd _ _ d) by auto.
        unfold vmul. rewrite (map2_at nmul _ _ d) by auto. rewrite !(map2_at _ lo up d) by auto.
        rewrite Hloa, Hupa by exact Hj. reflexivity. }
      pose proof (cpo_pen _ _ HP) as Hpen. unfold Fitness.
      assert (HEv : forall g : T -> T, (forall x, g x = Repaired (a_constraints (caa A)) x) ->
        Forall2 (Evaluated A rows) arx (map (cma_un P) (map (map g) arx))).
      { intros g Hg. rewrite map_map. clear -Hlen Hun Hg. induction Hlen as [|x l Hx Hl IH]; cbn; constructor; [|exact IH].
        destruct (Hun (map g x)) as [H1 H2]; [rewrite map_length; exact Hx|]. split; [exact H1|].
        intros j Hj. rewrite (H2 j Hj). rewrite (map_at g x n0 j) by vlia. rewrite Hg. reflexivity. }
      destruct (a_constraints (caa A)) as [c|] eqn:Hc.
      - destruct (fo_pen _ _ _ _ _ _ _ _ _ HF Hpen) as (-> & Hfit & delta & hist & Hdl & Hhi & Hpw & Hini).
        assert (Hpl : length (pen_w pen') = d).
        { rewrite Hpw. rewrite A_d.
          set (w0 := if _ && _ then _ else _).
          assert (Hw0 : length w0 = d) by (unfold w0; destruct (_ && _); [apply repeat_length|exact Hw]).
          clearbody w0. destruct (existsb _ _); [|exact Hw0].
          unfold pen_grow. rewrite map2_length. unfold pen_idx. rewrite map3_length, !combine_length.
          unfold pen_ti, pen_tx. rewrite !map_length, Hml, Hw0. vlia. }
        split; [|split; [apply HEv; reflexivity|exact Hpl]].
        split.
        { apply (pen_Enforced n cv dg var raw pen' delta hist); assumption. }
        split; [vlia|]. intros i Hi. cbn [border_of b_weight].
        rewrite Hfit. rewrite map3_nth with (a := n0) (b := @nil T) (c := @nil T) by (rewrite ?map_length; vlia).
        f_equal. unfold penalty.
        assert (Hxi : length (row arx i) = d) by (apply (Forall_nth_lt _ _ [] i Hlen); vlia).
        assert (Hyi : row (map (map clip1) arx) i = map clip1 (row arx i)) by (apply (map_row (map clip1) arx [] i); vlia).
        rewrite Hyi.
        assert (Hsc : length (bnd_scale dg) = d) by (unfold bnd_scale; rewrite map_length; exact Hml).
        assert (H1 : length (vsub (map clip1 (row arx i)) (row arx i)) = d) by (unfold vsub; rewrite map2_length, map_length; vlia).
        assert (H2 : length (vdiv (pen_w pen') (bnd_scale dg)) = d) by (unfold vdiv; rewrite map2_length; vlia).
        rewrite (vdot_at _ _ d) by (rewrite ?map_length; assumption). apply Sum_ext. intros j Hj.
        rewrite (map_at nsq _ n0 j) by vlia. unfold vsub. rewrite (map2_at nsub _ _ d) by (rewrite ?map_length; vlia).
        rewrite (map_at clip1 _ n0 j) by vlia. f_equal.
        unfold vdiv. rewrite (map2_at ndiv _ _ d) by assumption. f_equal.
        unfold bnd_scale. cbn zeta. rewrite (map_at _ dg n0 j) by vlia. rewrite (Hda j Hj).
        unfold vmean. rewrite map_length, Hml.
        rewrite (vsum_Sum _ d) by (rewrite map_length; exact Hml).
        replace (Sum d (fun k => (map nln dg)@k)) with (Sum d (fun k => nln (var k))); [reflexivity|].
        apply Sum_ext. intros k Hk. rewrite (map_at nln _ n0 k) by vlia. rewrite (Hda k Hk). reflexivity.
      - destruct (fo_plain _ _ _ _ _ _ _ _ _ HF Hpen) as (-> & -> & ->). split; [reflexivity|]. split; [|exact Hw].
        assert (Hid : map (map (fun x : T => x)) arx = arx).
        { clear. induction arx as [|x l IH]; cbn; [reflexivity|]. rewrite map_id. f_equal. exact IH. }
        pose proof (HEv (fun x => x) (fun x => eq_refl)) as H. rewrite Hid in H. exact H.
    Qed.

    Lemma Rates_of mueff cc cs c1 cmu damps chi : Rates d mu mueff cc cs c1 cmu damps chi ->
      cm_mueff P = mueff /\ cma_cc (nN (cm_d P)) (cm_mueff P) = cc /\ cma_cs (nN (cm_d P)) (cm_mueff P) = cs /\
      cma_c1 (nN (cm_d P)) (cm_mueff P) = c1 /\ cma_cmu (nN (cm_d P)) (cm_mueff P) = cmu /\
      cma_damps (nN (cm_d P)) (cm_mueff P) = damps /\ cma_chind (cm_d P) = chi.
    Proof.
      intros [H1 H2 H3 H4 H5 H6 H7].
      assert (Hm : cm_mueff P = mueff) by (rewrite (cpo_mueff _ _ HP), (cpo_w _ _ HP), mueff_sum; symmetry; exact H1).
      rewrite A_d, Hm. unfold cma_chind, cma_damps, cma_cmu. subst. repeat split; reflexivity.
    Qed.

    Lemma HistIs_set it hist h v : (0 <= it)%Z -> (it + 1 <= cm_maxiter P)%Z -> HistIs it hist h ->
      HistIs (it + 1) (upd (Z.to_nat (it + 1 - 1)) v hist) (h ++ [v]).
    Proof.
      intros H0 H1 [-> Hl]. split.
      - replace (it + 1 - 1)%Z with it by lia. rewrite <- Hl at 1.
        replace (Z.to_nat (cm_maxiter P) - Z.to_nat it)%nat with (Datatypes.S (Z.to_nat (cm_maxiter P) - Z.to_nat (it + 1)))%nat by lia.
        cbn [repeat]. rewrite <- app_assoc. clear. induction h as [|x h IH]; [reflexivity|]. cbn [app length upd]. f_equal. exact IH.
      - rewrite app_length, Hl. cbn [length]. lia.
    Qed.

    Lemma vmax_In (l : list T) : l <> [] -> In (vmax l) l.
    Proof.
      destruct l as [|a l]; [congruence|]. intros _. cbn [vmax]. revert a. induction l as [|b l IH]; intros a; cbn; [auto|].
      destruct (IH (np_max2 a b)) as [H|H]; [|right; right; exact H].
      rewrite <- H. unfold np_max2. destruct (nisnan a); auto. destruct (_ <=? _); auto.
    Qed.

    Lemma vmax_Greatest (l : list T) : Greatest l (vmax l).
    Proof.
      intros Hne. split; [apply vmax_In, Hne|]. intros L. split; [intros HF; apply vmax_ub; eapply Forall_forall; [exact HF|apply vmax_In, Hne]|].
      intros (x & Hx & Hn) Hm. apply Hn. apply (le_num_l _ _ (vmax_ub l Hm x Hx)).
    Qed.
    Lemma vmin_Least (l : list T) : Least l (vmin l).
    Proof.
      intros Hne. split; [apply vmin_In, Hne|]. intros L. split; [intros HF; apply vmin_lb; eapply Forall_forall; [exact HF|apply vmin_In, Hne]|].
      intros (x & Hx & Hn) Hm. apply Hn. apply (le_num_r _ _ (vmin_lb l Hm x Hx)).
    Qed.

    Lemma forallb_tab {X} (f : X -> bool) (g : nat -> bool) (l : list X) (x0 : X) n : length l = n ->
      (forall j, (j < n)%nat -> f (nth j l x0) = g j) -> forallb f l = forallb g (seq 0 n).
    Proof.
      intros Hl H. assert (He : l = map (fun j => nth j l x0) (seq 0 n)).
      { apply (nth_ext _ _ x0 x0); [rewrite map_length, seq_length; exact Hl|]. intros k Hk.
        rewrite nth_indep with (d := x0) (d' := nth 0 l x0) (l := map _ _) by (rewrite map_length, seq_length; lia).
        rewrite (map_nth (fun j => nth j l x0)). rewrite seq_nth by lia. reflexivity. }
      rewrite He at 1. clear He. assert (H' : forall j, In j (seq 0 n) -> f (nth j l x0) = g j) by (intros j Hj; apply H; apply in_seq in Hj; lia).
      induction (seq 0 n) as [|j q IH]; [reflexivity|]. cbn [map forallb]. rewrite (H' j) by (left; reflexivity). f_equal.
      apply IH. intros i Hi. apply H'. right. exact Hi.
    Qed.
    Lemma existsb_tab {X} (f : X -> bool) (g : nat -> bool) (l : list X) (x0 : X) n : length l = n ->
      (forall j, (j < n)%nat -> f (nth j l x0) = g j) -> existsb f l = existsb g (seq 0 n).
    Proof.
      intros Hl H. assert (Hn : forall (Y : Type) (q : Y -> bool) m, existsb q m = negb (forallb (fun y => negb (q y)) m)).
      { intros Y q m. induction m as [|y m IH]; [reflexivity|]. cbn. rewrite IH. destruct (q y); reflexivity. }
      rewrite !Hn. f_equal. apply (forallb_tab _ _ l x0 n Hl). intros j Hj. rewrite (H j Hj). reflexivity.
    Qed.

    Lemma converge_Verdict n (m m' : vec) (sz : T) (pc dg : vec) (var : nat -> T) BD (f h hist : list T) :
      (1 <= n)%nat -> length m = d -> length m' = d -> length pc = d -> length dg = d ->
      (forall j, (j < d)%nat -> dg@j = var j) ->
      match BD with Some (B, D) => Square d B /\ length D = d | None => True end ->
      HistIs (Z.of_nat n) hist h ->
      Verdict A d n m m' sz pc var BD f h
        (converge (Z.of_nat n) d (cm_maxiter P) m' m hist f (last h n0) sz (cm_insigma P) (cm_ilim P) pc
                  (cm_xtol P) (cm_ftol P) dg BD).
    Proof.
      intros Hn Hm Hm' Hpc Hdg Hva HBD [Hh Hlh]. rewrite Nat2Z.id in Hh, Hlh.
      rewrite (cpo_mx _ _ HP) in *. rewrite (cpo_xtol _ _ HP), (cpo_ftol _ _ HP), (cpo_sigma _ _ HP).
      set (w := cm_ilim P). set (mx := a_maxiter (caa A)) in *.
      set (win := skipn (n - Z.to_nat w) h ++ [#0]).
      set (all := f ++ h ++ repeat (#0) (Z.to_nat mx - n)).
      set (sq := map (fun j => nsqrt (var j)) (seq 0 d)).
      exists w, (vmax win), (vmin win), (vmax all), (vmin all), (vmax sq). cbn zeta. fold mx.
      split; [unfold w; rewrite <- (cpo_ilim _ _ HP), A_d; reflexivity|].
      split; [apply vmax_Greatest|]. split; [apply vmin_Least|]. split; [apply vmax_Greatest|]. split; [apply vmin_Least|].
      split; [apply vmax_Greatest|].
      assert (Hsq : map nsqrt dg = sq).
      { unfold sq. rewrite (list_tab dg d Hdg), map_map. apply map_ext_in. intros k Hk. apply in_seq in Hk. rewrite Hva by lia. reflexivity. }
      assert (Hsl : length sq = d) by (unfold sq; rewrite map_length; apply seq_length).
      assert (Hsa : forall j, (j < d)%nat -> sq@j = nsqrt (var j)) by (intros j Hj; unfold sq; apply tab_at, Hj).
      set (i := Z.to_nat (Z.of_nat n mod Z.of_nat d)).
      assert (Hi : (0 < d)%nat -> i = (n mod d)%nat) by (intros Hd; unfold i; rewrite <- Nat2Z.inj_mod; apply Nat2Z.id).
      set (noaxis := match BD with None => false | Some (B, D) => forallb (fun b => nabs (nlit 1 (-1) * sz * b * nth i D n0) <? nlit 1 (-10)) (col B i) end).
      set (cond := match BD with None => false | Some (_, D) => nlit 1 7 * vmin D <? vmax D end).
      exists noaxis, cond. split.
      { unfold noaxis, cond. destruct BD as [[B D]|]; [|split; reflexivity]. destruct HBD as [HB HD]. split.
        - unfold All_of. apply (forallb_tab _ _ (col B i) n0 d).
          + unfold col. rewrite map_length. apply HB.
          + intros j Hj. rewrite col_at by (destruct HB; vlia). rewrite Hi by lia. reflexivity.
        - exists (vmax D), (vmin D). split; [apply vmax_Greatest|]. split; [apply vmin_Least|reflexivity]. }
      unfold converge. rewrite Hsq. fold i.
      assert (Hnorm : vnorm (vsub m m') = nsqrt (Sum d (fun j => (m@j - m'@j) * (m@j - m'@j)))).
      { assert (Hvl : length (vsub m m') = d) by (unfold vsub; rewrite map2_length; vlia).
        rewrite (vnorm_at _ d Hvl). unfold Norm. f_equal. apply Sum_ext. intros k Hk. unfold vsub.
        rewrite (map2_at nsub _ _ d) by assumption. reflexivity. }
      rewrite Hnorm. unfold FirstOf. cbn [find snd]. change (last h (#0)) with (last h n0).
      destruct (mx <=? Z.of_nat n)%Z eqn:Hmx; [reflexivity|]. apply Z.leb_gt in Hmx.
      match goal with |- (if ?b then _ else _) = _ => destruct b; [reflexivity|] end. match goal with |- (if ?b then _ else _) = _ => destruct b; [reflexivity|] end.
      match goal with |- (if ?b then _ else _) = _ => change b with noaxis; clearbody noaxis; destruct noaxis; [reflexivity|] end.
      assert (H3 : existsb (fun s => nlit 2 (-1) * sz * s <? nlit 1 (-10)) sq = Some_of d (fun j => nlit 2 (-1) * sz * nsqrt (var j) <? nlit 1 (-10))).
      { apply (existsb_tab _ _ sq n0 d Hsl). intros j Hj. rewrite Hsa by exact Hj. reflexivity. }
      rewrite H3. match goal with |- (if ?b then _ else _) = _ => destruct b; [reflexivity|] end. match goal with |- (if ?b then _ else _) = _ => change b with cond; clearbody cond; destruct cond; [reflexivity|] end.
      assert (Hwin : (w <=? Z.of_nat n)%Z = true ->
        vmax (slice (Z.to_nat (Z.of_nat n - w)) (Z.to_nat (Z.of_nat n + 1)) hist) = vmax win /\
        vmin (slice (Z.to_nat (Z.of_nat n - w)) (Z.to_nat (Z.of_nat n + 1)) hist) = vmin win).
      { intros Hw. apply Z.leb_le in Hw. unfold slice. destruct (Z.ltb_spec w 0) as [Hw0|Hw0].
        - replace (Z.to_nat (Z.of_nat n + 1) - Z.to_nat (Z.of_nat n - w))%nat with 0%nat by lia.
          unfold win. replace (n - Z.to_nat w)%nat with (length h) by lia. rewrite skipn_all. split; reflexivity.
        - replace (Z.to_nat (Z.of_nat n - w)) with (n - Z.to_nat w)%nat by lia.
          replace (Z.to_nat (Z.of_nat n + 1)) with (Datatypes.S n) by lia.
          assert (Hs : firstn (Datatypes.S n - (n - Z.to_nat w)) (skipn (n - Z.to_nat w) hist) = win); [|rewrite Hs; split; reflexivity].
          rewrite Hh, skipn_app. replace (n - Z.to_nat w - length h)%nat with 0%nat by lia.
          replace (Z.to_nat mx - n)%nat with (Datatypes.S (Z.to_nat mx - n - 1)) by lia. cbn [skipn repeat].
          rewrite firstn_app, skipn_length.
          replace (Datatypes.S n - (n - Z.to_nat w) - (length h - (n - Z.to_nat w)))%nat with 1%nat by lia.
          rewrite firstn_all2 by (rewrite skipn_length; lia). reflexivity. }
      assert (H5 : (w <=? Z.of_nat n)%Z && (vmax (slice (Z.to_nat (Z.of_nat n - w)) (Z.to_nat (Z.of_nat n + 1)) hist)
                     - vmin (slice (Z.to_nat (Z.of_nat n - w)) (Z.to_nat (Z.of_nat n + 1)) hist) <? nlit 1 (-10))
                   = (w <=? Z.of_nat n)%Z && (vmax win - vmin win <? nlit 1 (-10))).
      { destruct (w <=? Z.of_nat n)%Z; [|reflexivity]. destruct (Hwin eq_refl) as [-> ->]. reflexivity. }
      rewrite H5. match goal with |- (if ?b then _ else _) = _ => destruct b; [reflexivity|] end.
      assert (H6 : existsb (fun s => nlit 1 3 * caa_sigma A <? sz * s) sq = Some_of d (fun j => nlit 1 3 * caa_sigma A <? sz * nsqrt (var j))).
      { apply (existsb_tab _ _ sq n0 d Hsl). intros j Hj. rewrite Hsa by exact Hj. reflexivity. }
      rewrite H6. match goal with |- (if ?b then _ else _) = _ => destruct b; [reflexivity|] end.
      rewrite Hh. change (f ++ h ++ repeat n0 (Z.to_nat mx - n)) with all.
      replace (2 <? Z.of_nat n)%Z with (2 <? n)%nat by (destruct (Nat.ltb_spec 2 n), (Z.ltb_spec 2 (Z.of_nat n)); lia || reflexivity).
      match goal with |- (if ?b then _ else _) = _ => destruct b; [reflexivity|] end.
      rewrite forallb_app. cbn [forallb]. rewrite andb_true_r.
      assert (H8 : forallb (fun x => sz * x <? nlit 1 (-11) * caa_sigma A) (map nabs pc) = All_of d (fun j => sz * nabs pc@j <? nlit 1 (-11) * caa_sigma A)).
      { apply (forallb_tab _ _ (map nabs pc) n0 d); [rewrite map_length; exact Hpc|]. intros j Hj.
        rewrite (map_at nabs pc n0 j) by vlia. reflexivity. }
      rewrite H8. match goal with |- (if ?b then _ else _) = _ => destruct b; reflexivity end.
    Qed.

    Lemma step_Adapt it s st : AInv it s None st ->
      wp (cma_step P (it + 1) s) (fun r st' => AInv (it + 1) (fst r) (snd r) st' /\ cs_index (fst r) <> []) NF st.
    Proof.
      intros ((h & Hh & HA) & HS & Hpw & Hxo & Hit & Hnf).
      assert (Hmode : ModeOK (cm_mode P)) by apply (EnvOK_mode HE).
      unfold cma_step. cbn zeta.
      eapply wp_quiet_NF; [apply (sample_Sampled s HS)|]. intros arx s1 Ht1 _ [Hl1 HX].
      apply wp_bind. apply (wp_cma_fitness P Hmode arx (cma_view s)).
      intros raw fit valid pen' s2 evs Hlr Hlf Hlv Ht2 _ _ _ Hev HF.
      assert (Hlr' : length raw = p) by (transitivity (length arx); assumption).
      assert (Hlf' : length fit = p) by (transitivity (length arx); assumption).
      assert (HXl : Forall (fun x : list T => length x = d) arx).
      { eapply Forall_impl; [|exact HX]. intros x (z & _ & _ & H & _). exact H. }
      assert (Hdgl : length (mdiag (cs_C s)) = d).
      { unfold mdiag. rewrite map_length, seq_length. apply (sh_cov _ _ HS). }
      assert (Hdga : forall k, (k < d)%nat -> (mdiag (cs_C s))@k = (cs_C s)[.k, k.]).
      { intros k Hk. unfold mdiag. rewrite tab_at by (destruct (sh_cov _ _ HS) as [H _]; cbn in H; vlia). reflexivity. }
      replace (it + 1)%Z with (Z.of_nat (Datatypes.S (Z.to_nat it))) in HF by lia.
      destruct (fit_Fitness (Datatypes.S (Z.to_nat it)) (cma_view s) _ _ arx valid raw fit pen' (sh_mean _ _ HS) Hxo Hdgl Hdga Hpw
                  Hl1 HXl Hlr' Hlf' HF) as (HFt & HEv & Hpl).
      apply wp_bind, wp_cma_record. intros r' _.
      apply wp_bind, wp_hist_set. intros Hhs.
      set (K := e_argsort fit).
      assert (HK : Ranking fit K) by apply argsort_Ranking.
      assert (HKl : length K = p) by (unfold K; rewrite argsort_len; exact Hlf').
      assert (HKlt : forall k, (k < p)%nat -> (nth k K 0 < p)%nat).
      { intros k Hk. rewrite <- Hlf'. apply argsort_lt. vlia. }
      assert (Hlen : Forall (fun x : list T => length x = d) arx).
      { eapply Forall_impl; [|exact HX]. intros x (z & _ & _ & H & _). exact H. }
      set (sel := map (fun k => nth k arx []) (firstn (cm_mu P) K)).
      assert (Hsell : length sel = mu) by (unfold sel; rewrite map_length, firstn_length; vlia).
      assert (Hsela : forall k, (k < mu)%nat -> row sel k = row arx (nth k K 0%nat)).
      { intros k Hk. unfold sel. etransitivity; [apply (map_row (fun k => nth k arx []) (firstn (cm_mu P) K) 0%nat k)|].
        - rewrite firstn_length. vlia.
        - cbn beta. rewrite nth_firstn' by exact Hk. reflexivity. }
      assert (Hselr : forall k, (k < mu)%nat -> length (row sel k) = d).
      { intros k Hk. rewrite (Hsela k Hk). apply (Forall_nth_lt _ _ [] _ Hlen).
        pose proof (HKlt k ltac:(vlia)). vlia. }
      clearbody sel.
      set (m' := vmat (cm_d P) (cm_w P) sel).
      assert (Hwl : length (cm_w P) = mu) by (rewrite (cpo_w _ _ HP); apply weights_len).
      assert (Hm'l : length m' = d) by (unfold m'; rewrite A_d; apply vmat_len).
      assert (Hm'a : forall j, (j < d)%nat -> m'@j = Sum mu (fun k => Weight mu k * arx[.nth k K 0%nat, j.])).
      { intros j Hj. unfold m'. rewrite A_d. rewrite (vmat_at d _ sel mu) by assumption. apply Sum_ext. intros k Hk.
        rewrite (cpo_w _ _ HP), (Hsela k Hk). f_equal. apply weights_at, Hk. }
      clearbody m'.
      set (dx := vsub m' (cs_xmean s)).
      pose proof (sh_mean _ _ HS) as Hml. pose proof (sh_ps _ _ HS) as Hpsl. pose proof (sh_pc _ _ HS) as Hpcl.
      pose proof (sh_cov _ _ HS) as HCsq. pose proof (sh_axes _ _ HS) as HBsq. pose proof (sh_scales _ _ HS) as HDl.
      pose proof (sh_isq _ _ HS) as Hisq. cbn [dist_of mean path_s path_c cov axes scales isq] in *.
      assert (Hdxl : length dx = d) by (unfold dx, vsub; rewrite map2_length; vlia).
      assert (Hdxa : forall j, (j < d)%nat -> dx@j = m'@j - (cs_xmean s)@j).
      { intros j Hj. apply (map2_at nsub _ _ d); assumption. }
      set (ps := cma_ps P s dx).
      assert (Hivl : length (mvec (cs_inv s) dx) = d) by (unfold mvec; rewrite map_length; apply Hisq).
      assert (Hpsl' : length ps = d).
      { unfold ps, cma_ps, vadd, vscale. rewrite map2_length, !map_length, Hivl. vlia. }
      assert (Hpsa : forall j, (j < d)%nat -> let cs := cma_cs (nN (cm_d P)) (cm_mueff P) in
        ps@j = (#1 - cs) * (cs_ps s)@j
          + nsqrt (cs * (#2 - cs) * cm_mueff P) * Sum d (fun k => (cs_inv s)[.j, k.] * dx@k) / cs_sigma s).
      { intros j Hj. unfold ps, cma_ps, vadd, vscale. cbn zeta.
        rewrite (map2_at nadd _ _ d) by (rewrite ?map_length; vlia).
        rewrite (map_at _ (cs_ps s) n0 j) by vlia. f_equal.
        rewrite map_map. rewrite (map_at _ (mvec (cs_inv s) dx) n0 j) by vlia. f_equal. f_equal.
        apply mvec_at; assumption. }
      clearbody ps.
      set (cond := cma_cond P _ ps).
      set (pc := cma_pc P s cond dx).
      assert (Hpcl' : length pc = d).
      { unfold pc, cma_pc, vadd, vscale. cbn zeta. destruct cond; rewrite ?map2_length, !map_length; vlia. }
      assert (Hpca : forall j, (j < d)%nat -> let cc := cma_cc (nN (cm_d P)) (cm_mueff P) in
        pc@j = (cs_pc s)@j * (#1 - cc)
          + (if cond then nsqrt (cc * (#2 - cc) * cm_mueff P) * dx@j / cs_sigma s else #0)).
      { intros j Hj. unfold pc, cma_pc, vadd, vscale. cbn zeta. destruct cond.
        - rewrite (map2_at nadd _ _ d) by (rewrite ?map_length; vlia).
          rewrite (map_at _ (cs_pc s) n0 j) by vlia. rewrite map_map, (map_at _ dx n0 j) by vlia. reflexivity.
        - rewrite map_map, (map_at _ (cs_pc s) n0 j) by vlia. reflexivity. }
      clearbody pc.
      set (y := map (fun x => map (fun v => v / cs_sigma s) (vsub x (cs_xmean s))) sel).
      assert (Hyl : length y = mu) by (unfold y; rewrite map_length; exact Hsell).
      assert (Hya : forall k j, (k < mu)%nat -> (j < d)%nat ->
        y[.k, j.] = (arx[.nth k K 0%nat, j.] - (cs_xmean s)@j) / cs_sigma s).
      { intros k j Hk Hj. unfold y.
        rewrite (map_row (fun x => map (fun v => v / cs_sigma s) (vsub x (cs_xmean s))) sel [] k) by vlia.
        pose proof (Hselr k Hk) as Hrl.
        assert (Hsl : length (vsub (row sel k) (cs_xmean s)) = d) by (unfold vsub; rewrite map2_length; vlia).
        rewrite (map_at _ (vsub (row sel k) (cs_xmean s)) n0 j) by vlia.
        unfold vsub. rewrite (map2_at nsub _ _ d) by assumption. rewrite (Hsela k Hk). reflexivity. }
      clearbody y.
      set (c1 := cma_c1 _ _). set (cc := cma_cc _ _). set (cmu := cma_cmu _ _).
      set (C := cov_update (cm_d P) c1 cc cmu (cm_w P) y pc cond (cs_C s)).
      destruct (cov_update_at d mu c1 cc cmu (cm_w P) y pc cond (cs_C s) Hwl Hyl Hpcl' HCsq) as [HCn HCa].
      assert (HCu : C = cov_update d c1 cc cmu (cm_w P) y pc cond (cs_C s)) by (unfold C; rewrite A_d; reflexivity).
      rewrite <- HCu in HCn, HCa.
      assert (HCa' : forall i j, (i < d)%nat -> (j < d)%nat -> C[.i, j.] =
        (cs_C s)[.i, j.] * (#1 - c1 - cmu)
        + cmu * Prod mu (Prod mu (fun i k => (arx[.nth k K 0%nat, i.] - (cs_xmean s)@i) / cs_sigma s) (Diag (Weight mu)))
                  (fun k j => (arx[.nth k K 0%nat, j.] - (cs_xmean s)@j) / cs_sigma s) i j
        + c1 * (pc@i * pc@j)
        + (if cond then #0 else c1 * cc * (#2 - cc) * (cs_C s)[.i, j.])).
      { intros i j Hi Hj. rewrite HCa by assumption.
        f_equal. f_equal. f_equal. f_equal. apply Prod_ext. intros k Hk. split; [|apply Hya; assumption].
        apply Prod_ext. intros l Hl. split; [apply Hya; assumption|]. unfold Diag. destruct (Nat.eqb l k); [|reflexivity].
        rewrite (cpo_w _ _ HP). apply weights_at, Hl. }
      clear HCu HCa. clearbody C.
      set (sg := cs_sigma s * _).
      set (nfev := (cs_nfev s + Z.of_nat (cm_p P))%Z).
      assert (Hnf' : nfev = Z.of_nat (Datatypes.S (Z.to_nat it) * p)).
      { unfold nfev. rewrite Hnf. fold p. nia. }
      destruct (Hev HM) as (l & -> & Hpm & Hser). clear Hev.
      assert (Htr : forall s3 st3, tr st3 = tr s2 ->
         Adapted d mu p nfev arx K (dist_of s) (dist_of s3) ->
         cs_valid s3 = valid -> cs_fit s3 = fit -> cs_index s3 = K -> cs_pen s3 = pen' -> cs_xold s3 = cs_xmean s ->
         cs_nfev s3 = nfev -> cs_hist s3 = upd (Z.to_nat (it + 1 - 1)) (nth (nth 0 K 0%nat) fit n0) (cs_hist s) ->
         AInv (it + 1) s3 (converge (it + 1) (cm_d P) (cm_maxiter P) (cs_xmean s3) (cs_xmean s) (cs_hist s3) fit
                             (nth (nth 0 K 0%nat) fit n0) (cs_sigma s3) (cm_insigma P) (cm_ilim P) (cs_pc s3)
                             (cm_xtol P) (cm_ftol P) (mdiag (cs_C s3)) (Some (cs_B s3, cs_D s3))) st3 /\ cs_index s3 <> []).
      { intros s3 st3 Ht3 HAd H1 H2 H3 H4 H5 H6 H7.
        assert (HKn : K <> []) by (intros ->; pose proof A_p; cbn in HKl; lia).
        split; [|rewrite H3; exact HKn].
        split; [|split; [apply (ad_shape _ _ _ _ _ _ _ _ HAd)|split; [rewrite H4; exact Hpl|split; [rewrite H5; exact Hml|]]]].
        2: { rewrite H6, Hnf'. split; lia. }
        set (v := nth (nth 0 K 0%nat) fit n0) in *.
        assert (Hh' : HistIs (it + 1) (cs_hist s3) (h ++ [v])) by (rewrite H7; apply HistIs_set; [exact Hit|lia|exact Hh]).
        exists (h ++ [v]). split; [exact Hh'|].
        pose proof (ad_shape _ _ _ _ _ _ _ _ HAd) as HS3.
        assert (HV : Verdict A d (Datatypes.S (Z.to_nat it)) (cs_xmean s) (cs_xmean s3) (cs_sigma s3) (cs_pc s3)
                       (fun j => (cs_C s3)[.j, j.]) (Some (cs_B s3, cs_D s3)) fit (h ++ [v])
                       (converge (it + 1) (cm_d P) (cm_maxiter P) (cs_xmean s3) (cs_xmean s) (cs_hist s3) fit
                             v (cs_sigma s3) (cm_insigma P) (cm_ilim P) (cs_pc s3)
                             (cm_xtol P) (cm_ftol P) (mdiag (cs_C s3)) (Some (cs_B s3, cs_D s3)))).
        { replace (it + 1)%Z with (Z.of_nat (Datatypes.S (Z.to_nat it))) in * by lia. rewrite A_d.
          rewrite <- (last_last h v n0) at 2.
          apply converge_Verdict; [lia|exact Hml|apply (sh_mean _ _ HS3)|apply (sh_pc _ _ HS3)| | |split; [apply (sh_axes _ _ HS3)|apply (sh_scales _ _ HS3)]|exact Hh'].
          - unfold mdiag. rewrite map_length, seq_length. apply (sh_cov _ _ HS3).
          - intros k Hk. unfold mdiag. rewrite tab_at by (destruct (sh_cov _ _ HS3) as [H _]; cbn in H; vlia). reflexivity. }
        subst v.
        replace (Z.to_nat (it + 1)) with (Datatypes.S (Z.to_nat it)) by lia.
        rewrite Ht3, Ht2, evals_app, evals_ok, Ht1.
        unfold best_of, cma_best. rewrite H1, H2, H3, H4, H5.
        destruct K as [|k0 K'] eqn:HKe; [congruence|]. rewrite <- HKe in *. clear HKe.
        assert (Hv0 : cma_un P (nth (nth 0 K 0%nat) valid []) = row (map (cma_un P) valid) (nth 0 K 0%nat)).
        { symmetry. apply (map_row (cma_un P) valid [] (nth 0 K 0%nat)). pose proof (HKlt 0%nat A_p). vlia. }
        rewrite Hv0.
        eapply (Ad_generation A rows mu p serial (Z.to_nat it) (dist_of s) (border_of (cs_pen s) (cs_xold s)) (best_of s) (evals (tr st)) h arx
                  (map (cma_un P) valid) raw fit K l (dist_of s3)); eauto.
        - intros Hs. apply Hser. apply (one_worker_serial _ _ _ _ (cpo_mode _ _ HP) HM Hs).
        - rewrite <- Hnf'. exact HAd. }
      apply wp_bind.
      destruct (nN (cm_p P) / (c1 + cmu) / nN (cm_d P) / nZ 10 <? nZ (nfev - cs_eigeneval s)) eqn:Hrf.
      - destruct (e_eigh (symm (cm_d P) C)) as [[lam V]|] eqn:He; cbn [orelse].
        2: { apply wp_bind, wp_raise; discriminate. }
        apply wp_bind, wp_ret, wp_ret, wp_ret. cbn [fst snd].
        rewrite A_d in He. assert (Hsy : Square d (symm d C)) by apply Square_mtab.
        destruct (HEig d _ _ _ Hsy He) as [Hlam HV].
        set (O := e_argsort lam). assert (HO : Ranking lam O) by apply argsort_Ranking.
        assert (HOl : length O = d) by (unfold O; rewrite argsort_len; exact Hlam).
        assert (HOlt : forall k, (k < d)%nat -> (nth k O 0 < d)%nat) by (intros k Hk; rewrite <- Hlam; apply argsort_lt; vlia).
        set (D' := map (fun k => nsqrt (nth k lam n0)) O).
        set (B' := map (fun row => map (fun k => nth k row n0) O) V).
        assert (HD'l : length D' = d) by (unfold D'; rewrite map_length; exact HOl).
        assert (HB'l : length B' = d) by (unfold B'; rewrite map_length; apply HV).
        assert (HB' : Square d B').
        { split; [exact HB'l|]. unfold B'. apply Forall_map, Forall_forall. intros r _. rewrite map_length. exact HOl. }
        assert (HD'a : forall k, (k < d)%nat -> D'@k = nsqrt lam@(nth k O 0%nat)).
        { intros k Hk. unfold D'. apply (map_at (fun k => nsqrt (nth k lam n0)) O 0%nat k). vlia. }
        assert (HB'a : forall i k, (i < d)%nat -> (k < d)%nat -> B'[.i, k.] = V[.i, nth k O 0%nat.]).
        { intros i k Hi Hk. unfold B'.
          rewrite (map_row (fun row : list T => map (fun k => nth k row n0) O) V [] i) by (destruct HV; vlia).
          apply (map_at (fun k => nth k (row V i) n0) O 0%nat k). vlia. }
        clearbody D' B'.
        set (iv := mmul (cm_d P) (mmul (cm_d P) B' (diagm (map (fun x => n1 / x) D'))) (mtrans (cm_d P) B')).
        assert (Hiv : Square d iv).
        { unfold iv. rewrite A_d. apply Square_mmul. unfold mmul. rewrite map_length. exact HB'l. }
        assert (Hiva : forall i j, (i < d)%nat -> (j < d)%nat -> iv[.i, j.] =
          Prod d (Prod d (fun i k => B'[.i, k.]) (Diag (fun k => #1 / D'@k))) (fun k j => B'[.j, k.]) i j).
        { intros i j Hi Hj. unfold iv. rewrite A_d.
          assert (Hml2 : length (mmul d B' (diagm (map (fun x => n1 / x) D'))) = d) by (unfold mmul; rewrite map_length; exact HB'l).
          rewrite (mmul_at d _ _ d); [|vlia|apply mmul_row_len; vlia|unfold mtrans; rewrite map_length; apply seq_length|exact Hj].
          apply Prod_ext. intros k Hk. split; [|apply mtrans_at; vlia].
          rewrite (mmul_at d _ _ d); [|vlia|apply (Square_row _ _ _ HB' Hi)|unfold diagm, mtab; rewrite map_length, seq_length, map_length; exact HD'l|exact Hk].
          apply Prod_ext. intros l0 Hl0. split; [reflexivity|]. rewrite diagm_at by (rewrite map_length; vlia).
          unfold Diag. destruct (Nat.eqb l0 k); [|reflexivity]. apply (map_at (fun x => n1 / x) D' n0 l0). vlia. }
        clearbody iv.
        apply Htr; try reflexivity. constructor.
        + constructor; cbn [dist_of mean path_s path_c cov axes scales isq cs_xmean cs_ps cs_pc cs_C cs_B cs_D cs_inv]; auto.
          rewrite A_d. exact Hsy.
        + intros mueff cc0 cs0 c10 cmu0 damps chi HR. destruct (Rates_of _ _ _ _ _ _ _ HR) as (E1 & E2 & E3 & E4 & E5 & E6 & E7).
          unfold sg. unfold c1, cc, cmu in *. clear c1 cc cmu. rewrite E2, E4, E5 in HCa'. rewrite E4, E5 in Hrf. rewrite ?E3, E6, E7.
          rewrite E3 in Hpsa. rewrite E2 in Hpca. rewrite E1 in Hpsa, Hpca.
          assert (Hcond : cond = (Norm d ps / nsqrt (#1 - npow (#1 - cs0) (#2 * #nfev / nN p)) / chi <? nlit 14 (-1) + #2 / (nN d + #1))).
          { unfold cond, cma_cond. rewrite E3, E7, (vnorm_at ps d Hpsl'). rewrite A_d. reflexivity. }
          cbn [dist_of mean size path_s path_c cov axes scales isq since cs_xmean cs_sigma cs_ps cs_pc cs_C cs_B cs_D cs_inv cs_eigeneval].
          cbn zeta. rewrite <- Hcond. fold p in Hrf. rewrite A_d in Hrf |- *. rewrite Hrf.
          split; [exact Hm'a|]. split.
          { intros j Hj. rewrite (Hpsa j Hj). f_equal. f_equal. f_equal. apply Sum_ext. intros k Hk. rewrite (Hdxa k Hk). reflexivity. }
          split.
          { intros j Hj. rewrite (Hpca j Hj). rewrite (Hdxa j Hj). reflexivity. }
          split; [rewrite (vnorm_at ps d Hpsl'); reflexivity|].
          split; [reflexivity|]. split.
          { intros i j Hi Hj. rewrite symm_at by assumption. rewrite !HCa' by assumption. reflexivity. }
          exists lam, V, O. auto.
      - apply wp_ret, wp_ret. cbn [fst snd].
        match goal with |- AInv _ ?s3 _ _ /\ _ => apply (Htr s3) end; try reflexivity. constructor.
        + constructor; cbn [dist_of mean path_s path_c cov axes scales isq cs_xmean cs_ps cs_pc cs_C cs_B cs_D cs_inv]; auto.
        + intros mueff cc0 cs0 c10 cmu0 damps chi HR. destruct (Rates_of _ _ _ _ _ _ _ HR) as (E1 & E2 & E3 & E4 & E5 & E6 & E7).
          unfold sg. unfold c1, cc, cmu in *. clear c1 cc cmu. rewrite E2, E4, E5 in HCa'. rewrite E4, E5 in Hrf. rewrite ?E3, E6, E7.
          rewrite E3 in Hpsa. rewrite E2 in Hpca. rewrite E1 in Hpsa, Hpca.
          assert (Hcond : cond = (Norm d ps / nsqrt (#1 - npow (#1 - cs0) (#2 * #nfev / nN p)) / chi <? nlit 14 (-1) + #2 / (nN d + #1))).
          { unfold cond, cma_cond. rewrite E3, E7, (vnorm_at ps d Hpsl'). rewrite A_d. reflexivity. }
          cbn [dist_of mean size path_s path_c cov axes scales isq since cs_xmean cs_sigma cs_ps cs_pc cs_C cs_B cs_D cs_inv cs_eigeneval].
          cbn zeta. rewrite <- Hcond. fold p in Hrf. rewrite A_d in Hrf. rewrite Hrf.
          split; [exact Hm'a|]. split.
          { intros j Hj. rewrite (Hpsa j Hj). f_equal. f_equal. f_equal. apply Sum_ext. intros k Hk. rewrite (Hdxa k Hk). reflexivity. }
          split.
          { intros j Hj. rewrite (Hpca j Hj). rewrite (Hdxa j Hj). reflexivity. }
          split; [rewrite (vnorm_at ps d Hpsl'); reflexivity|].
          do 4 (split; [reflexivity|]). exact HCa'.
    Qed.

    Lemma start_Adapt s st : mean_init A P (cs_xmean s) -> cs_xold s = e_empty (cm_d P) ->
      cs_pc s = repeat n0 (cm_d P) -> cs_ps s = repeat n0 (cm_d P) ->
      cs_B s = eye (cm_d P) -> cs_D s = repeat n1 (cm_d P) -> cs_C s = eye (cm_d P) -> cs_inv s = eye (cm_d P) ->
      cs_sigma s = caa_sigma A -> cs_eigeneval s = 0%Z -> cs_nfev s = 0%Z -> cs_index s = [] ->
      cs_pen s = cma_init_pen (cm_d P) -> cs_hist s = repeat n0 (Z.to_nat (cm_maxiter P)) -> tr st = [] -> AInv 0 s None st.
    Proof.
      intros Hm Ho Hpc Hps HB HD HC Hi Hs He Hn Hix Hpw Hhi Ht. rewrite A_d in *.
      assert (Heye : Square d (eye d)) by apply Square_mtab.
      assert (HSh : Shaped d (dist_of s)).
      { constructor; cbn [dist_of mean path_s path_c cov axes scales isq]; rewrite ?Hpc, ?Hps, ?HB, ?HD, ?HC, ?Hi, ?repeat_length; auto.
        unfold mean_init in Hm. rewrite A_d in Hm. destruct (a_x0 (caa A)) as [x|]; [|apply Hm]. destruct Hm as [-> Hl].
        destruct (cpo_bounds _ _ HP) as (rows' & Hb' & -> & ->). rewrite Hb in Hb'. injection Hb' as <-.
        unfold standardize, cma_xm, cma_xstd, vdiv, vsub. rewrite !map2_length, !map_length. vlia. }
      split; [|split; [exact HSh|split; [rewrite Hpw; apply repeat_length|split; [rewrite Ho; apply HEmp|split; [lia|rewrite Hn; lia]]]]].
      exists []. split.
      { rewrite Hhi. split; [|reflexivity]. cbn [app]. f_equal. change (Z.to_nat 0) with 0%nat. lia. }
      rewrite Ht. unfold best_of. rewrite Hix. apply Ad_start.
      2: { rewrite Hpw, Ho. constructor; cbn [border_of cma_init_pen pen_w pen_hist pen_valid pen_ini b_weight b_spreads b_seen b_setting b_before]; auto.
           - rewrite repeat_length. split; [reflexivity|]. intros j _. apply nth_repeat. }
      constructor.
      - exact HSh.
      - intros j Hj. cbn [dist_of mean]. unfold mean_init in Hm. rewrite A_d in Hm.
        destruct (a_x0 (caa A)) as [x|].
        + destruct Hm as [-> Hl].
          destruct (cpo_bounds _ _ HP) as (rows' & Hb' & -> & ->). rewrite Hb in Hb'. injection Hb' as <-.
          match goal with |- context [cma_xm ?l ?u] => set (lo := l); set (up := u) end.
          assert (Hlo : length lo = d) by apply map_length. assert (Hup : length up = d) by apply map_length.
          assert (Hloa : lo@j = lower rows j) by apply (map_at (fun r : list T => r@0) rows [] j Hj).
          assert (Hupa : up@j = upper rows j) by apply (map_at (fun r : list T => r@1) rows [] j Hj).
          clearbody lo up. unfold standardize, cma_xm, cma_xstd, vdiv, vsub.
          rewrite (map2_at ndiv _ _ d) by (rewrite ?map2_length; vlia).
          rewrite (map2_at nsub _ _ d) by (rewrite ?map2_length; vlia).
          rewrite !(map2_at _ lo up d) by vlia. rewrite Hloa, Hupa. reflexivity.
        + destruct Hm as [Hl HF]. apply (Forall_nth_lt _ _ n0 j HF). vlia.
      - exact Hs.
      - intros j Hj. cbn [dist_of path_s path_c]. rewrite Hps, Hpc. split; apply nth_repeat.
      - intros i j Hi' Hj. cbn [dist_of cov axes isq scales]. cbn zeta. rewrite HC, HB, Hi, HD. unfold eye.
        rewrite mtab_at by assumption. do 3 (split; [reflexivity|]).
        rewrite nth_indep with (d' := n1) by (rewrite repeat_length; exact Hj). apply nth_repeat.
      - exact He.
    Qed.
  End Step.

  (** The constants exist (and are determined): the law is not empty. *)
  Lemma Rates_exist d mu : exists mueff cc cs c1 cmu damps chi, Rates d mu mueff cc cs c1 cmu damps chi.
  Proof. do 7 eexists. constructor; reflexivity. Qed.

  (** The rule for the weights always has a result once a positive spread is recorded. *)
  Lemma Enforced_exists d mu p n (m : vec) (sz : T) var raw (B : Border) s :
    LeastPositive (b_spreads B) s -> exists B', Enforced d mu p n m sz var raw B B'.
  Proof.
    intros Hs.
    set (u := ndiv (ndiv (ndiv (nsub (e_percentile raw (nZ 75)) (e_percentile raw (nZ 25))) (nN d)) (ndiv (Sum d var) (nN d))) (nsq sz)).
    set (z := neqb u (nZ 0)).
    set (l := if z then b_spreads B else if b_seen B then b_spreads B else []).
    set (h := (if nltb (nN (length l)) (nadd (nZ 20) (ndiv (nmul (nZ 3) (nN d)) (nN p))) then l else tl l) ++ [if z then s else u]).
    set (sn := if z then b_seen B else true).
    set (any := existsb (fun k => Outside (nth k m n0)) (seq 0 d)).
    set (mueff := ndiv (nsq (Sum mu (Weight mu))) (Sum mu (fun k => nsq (Weight mu k)))).
    set (w0 := fun j => if b_setting B && any then nmul (nlit 20002 (-4)) (e_median h) else nth j (b_weight B) n0).
    set (w1 := fun j =>
      let mj := nth j m n0 in
      let far := nsub mj (if nltb (nZ 1) mj then nZ 1 else mj) in
      if Outside mj && nltb (nmul (nmul (nmul (nZ 3) (pymax (nZ 1) (nsqrt (ndiv (nN d) mueff)))) sz) (nsqrt (var j))) (nabs far)
         && neqb (nsign far) (nsign (nsub mj (nth j (b_before B) n0)))
      then nmul (w0 j) (npow (nlit 12 (-1)) (pymin (nZ 1) (ndiv (ndiv mueff (nZ 10)) (nN d)))) else w0 j).
    exists (mkBorder (map w1 (seq 0 d)) h sn (b_setting B && negb (any && (sn && (2 <? Z.of_nat n)%Z))) m).
    constructor; cbn [b_weight b_spreads b_seen b_setting b_before].
    - reflexivity.
    - fold u. exists (if z then s else u), l. split; [reflexivity|]. fold z. unfold l, sn. destruct z; auto.
    - rewrite andb_true_iff, negb_true_iff. apply and_iff_compat_l.
      assert (Ha : any = true <-> exists j, (j < d)%nat /\ Outside (nth j m n0) = true).
      { unfold any. rewrite existsb_exists. split; intros (j & H1 & H2); exists j; (split; [|exact H2]).
        - apply in_seq in H1. lia.
        - apply in_seq. lia. }
      rewrite <- Ha. destruct any, sn; cbn [andb]; [|split; congruence..].
      rewrite Z.ltb_ge. split; [intros; lia|]. intros H. specialize (H eq_refl eq_refl). lia.
    - rewrite map_length. apply seq_length.
    - intros me Hme w Hw j Hj. rewrite Hme. fold mueff. fold any in Hw.
      assert (H0 : w j = w0 j).
      { unfold w0. destruct (b_setting B && any); apply Hw, Hj. }
      rewrite H0. etransitivity; [apply (tab_at w1 d j Hj)|]. reflexivity.
  Qed.

  (** The loop, with an invariant that knows the status of the last step. *)
  Lemma drive_course {S} (dr : Drv S) (cb : bool) (J : Z -> S -> option Z -> St -> Prop) :
    (forall it s st, J it s None st -> wp (d_step dr (it + 1) s) (fun sc st' => J (it + 1)%Z (fst sc) (snd sc) st') NF st) ->
    (forall it s c w w' t b, J it s c (mkSt w t b) ->
        J it s c (mkSt w' (t ++ [ECb (d_pop dr s) (cb_state dr it s) None]) b)) ->
    (forall it s st, J it s None st -> wp (d_post dr it s) (fun s' st' => J it s' None st') NF st) ->
    forall fl it s st, J it s None st ->
      wp (drive dr cb fl it s) (fun res st' => exists it' s', J it' s' (Some (r_status res)) st' /\ (it < it')%Z /\
            r_x res = d_x dr s' /\ r_fun res = d_fun dr s' /\ r_nit res = it') anyx st.
  Proof.
    intros Hstep Hcb Hpost. induction fl as [|fl IH]; intros it s st Hi; [exact Logic.I|].
    cbn [drive]. apply wp_bind. eapply wp_post; [apply wp_weak, (Hstep it s st Hi)|].
    intros [s' c] st' HI. cbn [fst snd] in HI. apply wp_bind.
    assert (HK : forall st'', J (it + 1)%Z s' c st'' ->
      wp match c with
         | Some c0 => result dr (it + 1) s' c0
         | None => s0 <- d_post dr (it + 1) s';; drive dr cb fl (it + 1) s0
         end (fun res st' => exists it' s', J it' s' (Some (r_status res)) st' /\ (it < it')%Z /\
            r_x res = d_x dr s' /\ r_fun res = d_fun dr s' /\ r_nit res = it') anyx st'').
    { intros st'' HI'. destruct c as [c|].
      - unfold result. destruct (message c); cbn [orelse].
        + apply wp_bind, wp_ret, wp_ret. exists (it + 1)%Z, s'. cbn [r_status r_x r_fun r_nit]. split; [exact HI'|]. split; [lia|]. auto.
        + apply wp_bind, wp_raise. exact Logic.I.
      - apply wp_bind. eapply wp_post; [apply wp_weak, (Hpost _ _ _ HI')|]. intros s2 st2 Hi2.
        eapply wp_post; [apply IH, Hi2|]. intros res st3 (it' & s3 & H1 & H2 & H3). exists it', s3. split; [exact H1|]. split; [lia|exact H3]. }
    apply wp_when; intros _.
    - destruct st' as [w t b]. apply wp_call_cb; [|intros; exact Logic.I].
      intros w' _. apply HK. apply (Hcb _ _ _ w), HI.
    - apply HK, HI.
  Qed.

  (** ** C58 *)

  (** A run of cmaes that returns: from the initial distribution, every generation samples its
      points from the current distribution, evaluates them (unstandardised and, with Penalize,
      clipped), ranks them by their values, and the next distribution is given by the stated
      equations.  The result is the best point of the last generation, and the run stops in the
      first generation that gives a reason to stop, for the first reason in the stated order. *)
  Theorem C58_adaptation A rows k w a0 res st' :
    a_bounds (caa A) = D2 2 rows ->
    a_backend (caa A) <> Some "mpi"%string ->
    ntrunc (caa_muperc A * #(a_popsize (caa A))) = Some k -> (k <= a_popsize (caa A))%Z ->
    exec (cmaes_minimize A) w a0 = (inl res, st') ->
    exists S B h,
      Adapt A rows (Z.to_nat k) (Z.to_nat (a_popsize (caa A))) (one_worker (a_workers (caa A)))
            (Z.to_nat (r_nit res)) S B (Some (r_x res, r_fun res)) (evals (tr st')) h (Some (r_status res)).
  Proof.
    intros Hb Hmpi Hk Hkp Hx.
    enough (H : wp (cmaes_minimize A) (fun res st' => exists S B h,
      Adapt A rows (Z.to_nat k) (Z.to_nat (a_popsize (caa A))) (one_worker (a_workers (caa A)))
            (Z.to_nat (r_nit res)) S B (Some (r_x res, r_fun res)) (evals (tr st')) h (Some (r_status res))) anyx (mkSt w [] a0))
      by exact (wp_elim _ _ _ _ _ _ H Hx).
    clear Hx res st'. unfold cmaes_minimize. apply wp_bind, wp_weak, wp_cma_check. intros w1 Hx0 Hsg Hmp Hcb.
    unfold cmaes. cbn zeta. apply wp_bind, wp_weak, wp_cma_setup; [exact Hx0|].
    intros xmean P0 s1 Ht1 _ Hxm HP Hd Hmx Hisg. cbn [tr] in Ht1.
    apply wp_bind, wp_weak, wp_cma_alloc. intros nout ilim H1 H2 H3 H4 H5.
    specialize (HP nout ilim Hsg Hmp H1 H2 H3 H4 H5).
    match goal with |- wp (drive (cma_drv ?P) _ _ _ ?s) _ _ _ => set (P' := P) in *; set (s0 := s) end.
    assert (HM : cm_mode P' <> Mpi) by (apply (de_mode_not_mpi _ _ _ _ (cpo_mode _ _ HP) Hmpi)).
    assert (Hmu : cm_mu P' = Z.to_nat k).
    { destruct (cpo_mu _ _ HP) as (k' & Hk' & ->). rewrite Hk in Hk'. injection Hk' as <-. reflexivity. }
    pose proof (cpo_p _ _ HP) as Hp.
    assert (Hle : (cm_mu P' <= cm_p P')%nat) by (rewrite Hmu, Hp; lia).
    assert (HI : AInv A rows P' 0 s0 None s1).
    { apply start_Adapt; try reflexivity; auto. rewrite (cpo_mx _ _ HP). reflexivity. }
    eapply wp_post.
    - apply (drive_course (cma_drv P') (has_cb (caa A))
               (fun it s c st => AInv A rows P' it s c st /\ ((0 < it)%Z -> cs_index s <> []))).
      + intros it s st [Hi _]. eapply wp_post; [apply (step_Adapt A rows P' Hb HP HM Hle it s st Hi)|].
        intros r st2 [H6 H7]. split; [exact H6|]. intros _. exact H7.
      + intros it s c w2 w' t b [(HA & HS & Hrest) Hne]. split; [|exact Hne]. split; [|split; [exact HS|exact Hrest]].
        cbn [tr] in *. rewrite evals_app. cbn [evals]. rewrite app_nil_r. exact HA.
      + intros it s st Hi. apply wp_ret. exact Hi.
      + split; [exact HI|]. lia.
    - intros res st' (it' & s' & [((h & _ & HA) & _) Hne] & Hlt & Hrx & Hrf & Hri). exists (dist_of s'), (border_of (cs_pen s') (cs_xold s')), h.
      rewrite Hrx, Hrf, Hri. rewrite <- Hmu, <- Hp. cbn [cma_drv d_x d_fun]. unfold best_of in HA. specialize (Hne Hlt).
      destruct (cs_index s') as [|k0 K'] eqn:HK; [congruence|]. exact HA.
  Qed.
End Adapt.
