(** Concrete cases of C66 and C67: the run of C60_ex (x^2+y^2 from (3,4)) moved by (5,7), and with 3 added to its values *)
From Coq Require Import ZArith String List Bool Reals Lra Lia.
From Verif Require Import Num Constants Subproblem HessApprox Steps TrustRegion Minimize ER NumFacts RVec
  Prop_Local Translate Prop_Translate Prop_Converge2 Prop_Quadratic.
Import ListNotations.
Local Open Scope R_scope.

Lemma shv_back : forall x c, shv (map Ropp c) (shv c x) = x.
Proof.
  induction x as [|a x IH]; intros c; simpl; auto. f_equal.
  - destruct a; simpl; auto. f_equal. destruct c; simpl; lra.
  - destruct c as [|b c]; simpl; [rewrite !shv_nil; reflexivity|apply IH].
Qed.
Definition centered (c : list R) : nat -> list ER -> retval ER := fun i x => e_obj cy_E i (shv (map Ropp c) x).
Lemma shv_fv2 a b p q : shv [a; b] (fv [p; q]) = fv [p + a; q + b].
Proof. reflexivity. Qed.
Example C66_ex sd : sd = "full"%string \/ sd = "2D"%string -> exists st',
  minimize (with_objective (centered [5; 7]) cy_E) (qy_C sd) 5 1 (fv [8; 11]) None H0None cx_st
    = (Ok (Fin (qF I2 [0; 0] 0 [0; 0]), o_x st', fv [0; 0], fm I2), st')
  /\ deref st' (o_x st') = fv [5; 7] /\ o_flag st' = GTOL.
Proof.
  intros Hsd. destruct (C60_ex sd Hsd) as (st' & H & Hd & Hf & _).
  exists (moved [5; 7] st').
  pose proof (C66_translation [5; 7] cy_E (qy_C sd) (centered [5; 7]) 5 1 (fv [3; 4]) None H0None cx_st _ _
    ltac:(intros i x; unfold centered; now rewrite shv_back) H) as K.
  split; [|split; [|exact Hf]].
  - rewrite shv_fv2 in K. replace (3 + 5) with 8 in K by ring. replace (4 + 7) with 11 in K by ring. exact K.
  - rewrite <- sho_moved. rewrite deref_sh.
    change (o_x (sho [5; 7] 0 st')) with (o_x st'). rewrite Hd, shv_fv2. now rewrite !Rplus_0_l.
Qed.
Example C67_ex sd : sd = "full"%string \/ sd = "2D"%string -> exists st',
  minimize (with_objective (fun i x => shr 3 (e_obj cy_E i x)) cy_E) (qy_C sd) 5 1 (fv [3; 4]) None H0None (raised 3 cx_st)
    = (Ok (Fin (qF I2 [0; 0] 0 [0; 0] + 3), o_x st', fv [0; 0], fm I2), st')
  /\ deref st' (o_x st') = fv [0; 0] /\ o_flag st' = GTOL.
Proof.
  intros Hsd. destruct (C60_ex sd Hsd) as (st' & H & Hd & Hf & _).
  exists (raised 3 st').
  pose proof (C67_constant_offset 3 cy_E (qy_C sd) _ 5 1 (fv [3; 4]) None H0None cx_st _ _ eq_refl eq_refl eq_refl (fun i x => eq_refl) H) as K.
  split; [exact K|]. split; [exact Hd|exact Hf].
Qed.
