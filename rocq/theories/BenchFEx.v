(** C41 in binary64: functions of a platform that meet the hypothesis on the cosine, and values there. *)
From Coq Require Import Floats.
From Verif Require Import Base Num NumF Bench BenchF Demo.

Definition cut (c : float) : float := if (1 <? c)%float then 1%float else if (c <? -1)%float then (-1)%float else c.
Definition CF : FloatFuns := {| f_exp := f_exp DF; f_ln := f_ln DF; f_cos := fun x => cut (f_cos DF x); f_pow := f_pow DF |}.
Theorem C41_binary64_hypotheses :
  CosOK CF /\
  let x := [1.5; -2; 0.25]%float in
  let pi := 0x1.921fb54442d18p+1%float in
  Forall (fun y : float => (0 <? y)%float = true)
    [@sphere (FArith CF) x; @quartic (FArith CF) x; @rosenbrock (FArith CF) x; @griewank (FArith CF) x; @rastrigin (FArith CF) pi x] /\
  (@griewank (FArith CF) [0; 0]%float =? 0)%float = true /\ (@rastrigin (FArith CF) pi [0; 0]%float =? 0)%float = true.
Proof.
  split.
  - intros x. change (@ncos (FArith CF) x) with (cut (f_cos DF x)). generalize (f_cos DF x) as c. intros c. unfold cut.
    destruct (1 <? c)%float eqn:H1; [split; reflexivity|]. destruct (c <? -1)%float eqn:H2; [split; reflexivity|]. auto.
  - cbv zeta. split; [|split; vm_compute; reflexivity]. repeat constructor; vm_compute; reflexivity.
Qed.
