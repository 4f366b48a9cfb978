(** C15 and C47 over the extended reals: their hypotheses in terms of the arguments. *)
From Coq Require Import Reals Lra.
From Verif Require Import Base Num NumR NumE Env Common DE Mat CMAES VDCMA Hoare Feas Rel Vary Par
  PropPar FeasPso.
Local Open Scope R_scope.

(** Over the extended reals no value is excluded from C15. *)
Theorem C15_adds_zero_real (x : er) : @adds_zero ENum x.
Proof.
  unfold adds_zero. change (@n0 (@num_arith ENum)) with (Fin (Rlit 0 0)).
  destruct x as [r| | |]; cbn; split; try reflexivity; f_equal; unfold Rlit; lra.
Qed.

Section C47.
  Context {E : Env ENum}.
  Variable emp : nat -> list er.

  Definition frow (p : R * R) : list er := [Fin (fst p); Fin (snd p)].

  (** x0 is a point of the box, or it is not given (and the generator returns numbers of [0, 1]). *)
  Definition starts_inside (bounds : list (R * R)) (x0 : option (list R)) : Prop :=
    match x0 with
    | Some x => length x = length bounds /\
        Forall (fun p => fst (fst p) <= snd p <= snd (fst p)) (combine bounds x)
    | None => forall r : @RNG ENum E, exists u, fst (e_rand r) = Fin u /\ 0 <= u <= 1
    end.

  Lemma half_5 : Rlit 5 (-1) = / 2.
  Proof. unfold Rlit. cbn. lra. Qed.

  Lemma std_inside l u x : l <= x <= u ->
    let v := er_div (Fin (x - Rlit 5 (-1) * (u + l))) (Fin (Rlit 5 (-1) * (u - l))) in
    er_ltb v (Fin (Rlit (-1) 0)) = false /\ er_ltb (Fin (Rlit 1 0)) v = false.
  Proof.
    intros H v. subst v. rewrite half_5, !Rlit_0. cbn [er_div].
    destruct (Req_EM_T (/ 2 * (u - l)) 0) as [He|He].
    - assert (x - / 2 * (u + l) = 0) as -> by lra. unfold er_sgn.
      destruct (Rlt_dec 0 0); [lra|]. destruct (Rlt_dec 0 0); [lra|]. split; reflexivity.
    - assert (Hd : 0 < / 2 * (u - l)) by lra. cbn.
      assert (Hm : (x - / 2 * (u + l)) / (/ 2 * (u - l)) * (/ 2 * (u - l)) = x - / 2 * (u + l))
        by (field; lra).
      set (q := (x - / 2 * (u + l)) / (/ 2 * (u - l))) in *.
      split; apply Rltb_false; nra.
  Qed.

  Lemma starts_inside_ok a bounds x0 :
    a_bounds a = D2 2 (map frow bounds) ->
    a_x0 a = option_map (fun x => D1 (map Fin x)) x0 ->
    starts_inside bounds x0 -> @first_mean_inside ENum E a.
  Proof.
    intros HB HX HS. unfold first_mean_inside. rewrite HX. destruct x0 as [x|]; cbn [option_map].
    - intros rows HR. rewrite HB in HR. injection HR as <-. cbn [nd_vec].
      destruct HS as [HL HS]. unfold inside, lows, ups. clear a HB HX. revert x HL HS.
      induction bounds as [|[l u] bounds IH]; intros [|x0 x] HL HS; try discriminate;
        [constructor|].
      cbn [combine] in HS. inversion HS as [|? ? H1 H2]; subst. cbn [fst snd] in H1.
      cbn [map frow fst snd nth]. cbn in HL. injection HL as HL.
      specialize (IH x HL H2). 
      change (Forall (fun x => @nltb EArith x (@nZ EArith (-1)) = false /\
                               @nltb EArith (@n1 EArith) x = false)
        (er_div (Fin (x0 - Rlit 5 (-1) * (u + l))) (Fin (Rlit 5 (-1) * (u - l))) ::
         standardize (cma_xm (map (fun r => nth 0 r n0) (map frow bounds))
                             (map (fun r => nth 1 r n0) (map frow bounds)))
                     (cma_xstd (map (fun r => nth 0 r n0) (map frow bounds))
                               (map (fun r => nth 1 r n0) (map frow bounds))) (map Fin x))).
      constructor; [|exact IH]. apply std_inside. exact H1.
    - intro r. destruct (HS r) as [u [Hu Hr]]. constructor; [|constructor].
      rewrite Hu. cbn. split; apply Rltb_false; lra.
  Qed.

  Theorem C47_cmaes_real A bounds x0 w a0 :
    a_bounds (caa A) = D2 2 (map frow bounds) ->
    a_x0 (caa A) = option_map (fun x => D1 (map Fin x)) x0 -> starts_inside bounds x0 ->
    @same_run ENum E (with_empty emp) eq eq (exec (cmaes_minimize A) w a0)
              (@exec ENum (with_empty emp) _ (cmaes_minimize A) w a0).
  Proof.
    intros HB HX HS. apply C47_cmaes. right. eapply starts_inside_ok; eassumption.
  Qed.
  Theorem C47_vdcma_real A bounds x0 w a0 :
    a_bounds (caa A) = D2 2 (map frow bounds) ->
    a_x0 (caa A) = option_map (fun x => D1 (map Fin x)) x0 -> starts_inside bounds x0 ->
    @same_run ENum E (with_empty emp) eq eq (exec (vdcma_minimize A) w a0)
              (@exec ENum (with_empty emp) _ (vdcma_minimize A) w a0).
  Proof.
    intros HB HX HS. apply C47_vdcma. right. eapply starts_inside_ok; eassumption.
  Qed.
End C47.
