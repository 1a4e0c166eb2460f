(** C72: the stopping inequalities of the documentation are not the ones that are tested (double precision runs) *)
From Coq Require Import String ZArith List Bool.
From Flocq Require Import BinarySingleNaN.
From Verif Require Import Num Constants Subproblem HessApprox Steps TrustRegion Minimize ER F64 Spec Witness Prop_Reuse Prop_Run Prop_Stops.
Import ListNotations.
Local Open Scope num_scope.

(** an objective lifted by a constant *)
Definition lifted (c : F64) (obj : nat -> list F64 -> retval F64) (k : nat) (x : list F64) : retval F64 :=
  match obj k x with
  | RTuple (PScal v :: rest) => RTuple (PScal (v + c) :: rest)
  | r => r
  end.
Definition value_at (C : cfg F64) (pr : list F64 * retval F64) : F64 := match value_of C (snd pr) with Some v => v | None => nnan end.
Definition gradient_at (C : cfg F64) (pr : list F64 * retval F64) : list F64 := match gradient_of C (snd pr) with Some g => g | None => [] end.
(** consecutive elements *)
Definition successive {A} (l : list A) : list (A * A) := combine l (tl l).

Definition tenth : F64 := fz 1 / fz 10.

(** FTOL for x^4 + 3 with the default options, although the documented inequality holds for no two points the run evaluated
    (the values exceed 1, so fatol - f_k frtol is negative) *)
Theorem C72_ftol_refuted : exists C st0 fv x g h st',
  optimizer_init (fun _ => false) (repeat (- ninf) 1) (repeat ninf 1) [] None false [] = Ok (C, st0)
  /\ minimize (world (lifted (fz 3) quartic)) C 1001 1 (fzs [2]%Z) None H0None st0 = (Ok (fv, x, g, h), st')
  /\ o_flag st' = FTOL /\ (2 < List.length (o_evals st'))%nat
  /\ forall p q, In p (o_evals st') -> In q (o_evals st') -> documented_f (c_opts C) (value_at C p) (value_at C q) = false.
Proof.
  assert (H : run_check (lifted (fz 3) quartic) (repeat (- ninf) 1) (repeat ninf 1) [] None false 1001 (fzs [2]%Z)
    (fun C fv x g h s => eqflag (o_flag s) FTOL && Nat.ltb 2 (List.length (o_evals s))
       && forallb (fun p => forallb (fun q => negb (documented_f (c_opts C) (value_at C p) (value_at C q))) (o_evals s)) (o_evals s)) = true) by (vm_compute; reflexivity).
  apply run_witness in H. destruct H as (C & st0 & fv & x & g & h & s & H0 & H1 & H2).
  apply andb_true_iff in H2 as [H2 H4]. apply andb_true_iff in H2 as [H2 H3].
  exists C, st0, fv, x, g, h, s. split; [exact H0|]. split; [exact H1|]. split.
  { unfold eqflag in H2. destruct (o_flag s); try discriminate H2; reflexivity. }
  split; [now apply Nat.ltb_lt|]. intros p q Hp Hq.
  pose proof (proj1 (forallb_forall _ _) H4 p Hp) as K. cbv beta in K.
  pose proof (proj1 (forallb_forall _ _) K q Hq) as K2. cbv beta in K2. now apply negb_true_iff in K2.
Qed.

(** XTOL for x^4 although no step of the run is shorter than xtol times the point it starts from *)
Theorem C72_xtol_refuted : exists C st0 fv x g h st',
  optimizer_init (fun _ => false) (repeat (- ninf) 1) (repeat ninf 1)
      [(KStr "xtol"%string, VReal tenth); (KStr "fatol"%string, VReal n0); (KStr "frtol"%string, VReal n0); (KStr "gatol"%string, VReal n0)] None false [] = Ok (C, st0)
  /\ minimize (world quartic) C 1001 1 (fzs [2]%Z) None H0None st0 = (Ok (fv, x, g, h), st')
  /\ o_flag st' = XF_XTOL /\ (2 < List.length (o_evals st'))%nat
  /\ forall p q, In (p, q) (successive (o_evals st')) -> documented_x (c_opts C) (fst p) (fst q) = false.
Proof.
  assert (H : run_check quartic (repeat (- ninf) 1) (repeat ninf 1)
      [(KStr "xtol"%string, VReal tenth); (KStr "fatol"%string, VReal n0); (KStr "frtol"%string, VReal n0); (KStr "gatol"%string, VReal n0)] None false 1001 (fzs [2]%Z)
    (fun C fv x g h s => eqflag (o_flag s) XF_XTOL && Nat.ltb 2 (List.length (o_evals s))
       && forallb (fun pq => negb (documented_x (c_opts C) (fst (fst pq)) (fst (snd pq)))) (successive (o_evals s))) = true) by (vm_compute; reflexivity).
  apply run_witness in H. destruct H as (C & st0 & fv & x & g & h & s & H0 & H1 & H2).
  apply andb_true_iff in H2 as [H2 H4]. apply andb_true_iff in H2 as [H2 H3].
  exists C, st0, fv, x, g, h, s. split; [exact H0|]. split; [exact H1|]. split.
  { unfold eqflag in H2. destruct (o_flag s); try discriminate H2; reflexivity. }
  split; [now apply Nat.ltb_lt|]. intros p q Hpq.
  pose proof (proj1 (forallb_forall _ _) H4 (p, q) Hpq) as K. cbn [fst snd] in K. now apply negb_true_iff in K.
Qed.

(** GTOL for x^4 - 1000 with grtol = 0.1 although the documented inequalities hold for no value and no gradient of the run
    (all values are negative, so grtol * f_k is) *)
Theorem C72_gtol_refuted : exists C st0 fv x g h st',
  optimizer_init (fun _ => false) (repeat (- ninf) 1) (repeat ninf 1) [(KStr "grtol"%string, VReal tenth)] None false [] = Ok (C, st0)
  /\ minimize (world (lifted (fz (-1000)) quartic)) C 1001 1 (fzs [2]%Z) None H0None st0 = (Ok (fv, x, g, h), st')
  /\ o_flag st' = GTOL
  /\ forall p q, In p (o_evals st') -> In q (o_evals st') -> documented_g (c_opts C) (value_at C p) (gradient_at C q) = false.
Proof.
  assert (H : run_check (lifted (fz (-1000)) quartic) (repeat (- ninf) 1) (repeat ninf 1) [(KStr "grtol"%string, VReal tenth)] None false 1001 (fzs [2]%Z)
    (fun C fv x g h s => eqflag (o_flag s) GTOL
       && forallb (fun p => forallb (fun q => negb (documented_g (c_opts C) (value_at C p) (gradient_at C q))) (o_evals s)) (o_evals s)) = true) by (vm_compute; reflexivity).
  apply run_witness in H. destruct H as (C & st0 & fv & x & g & h & s & H0 & H1 & H2).
  apply andb_true_iff in H2 as [H2 H4].
  exists C, st0, fv, x, g, h, s. split; [exact H0|]. split; [exact H1|]. split.
  { unfold eqflag in H2. destruct (o_flag s); try discriminate H2; reflexivity. }
  intros p q Hp Hq.
  pose proof (proj1 (forallb_forall _ _) H4 p Hp) as K. cbv beta in K.
  pose proof (proj1 (forallb_forall _ _) K q Hq) as K2. cbv beta in K2. now apply negb_true_iff in K2.
Qed.

(** the hypotheses of C72_documented_stops and C72_reported are met: x^2 + y^2 from (3,4), all tolerances zero *)
From Coq Require Import Reals Lia.
From Verif Require Import RVec RunInv MonadFacts MinFacts Run RunFrame Prop_Converge Prop_Converge2 Prop_Quadratic.
Lemma last_pass {T} {N : Num T} {L : NumLaws T} (E : env T) (C : cfg T) fuel ndim x0 sid h0 st fv x g h st' :
  minimize E C fuel ndim x0 sid h0 st = (Ok (fv, x, g, h), st') -> (1 <= o_iter st')%Z ->
  exists f0 s0 s1 f s, check_continue E C s0 = (Ok true, s1) /\ iteration E C f0 s1 = (Ok f, s) /\ nisfin (o_fval s0) = true.
Proof.
  intros H Hi. apply minimize_ok_inv in H as (f & s & s1 & Hl & Hc & Hw & _).
  assert (Ei : o_iter st' = o_iter s).
  { apply check_continue_false in Hc as (fl & k & ->).
    apply write_history_inv in Hw as [(_ & _ & ->)|[(file & _ & _ & _ & ->)|(file & _ & _ & -> & _)]]; reflexivity. }
  inversion Hl as [f' s' Hp|f0 s0 s2 f' s' Hl0 Hc0 Hi0]; subst.
  - apply prepare_frame in Hp as [_ Hp]. lia.
  - exists f0, s0, s2, f, s. split; [exact Hc0|]. split; [exact Hi0|]. apply (iv_fin _ _ _ _ _ _ _ (loop_head_Inv E C _ _ _ _ _ _ _ Hl0)).
Qed.
Example C72_ex : exists fuel fv x g h st' f0 s0 s1 f s a,
  minimize cy_E (qy_C "full"%string) fuel 1 (RVec.fv [3; 4]%R) None H0None cx_st = (Ok (fv, x, g, h), st') /\ o_flag st' = GTOL
  /\ check_continue cy_E (qy_C "full"%string) s0 = (Ok true, s1) /\ iteration cy_E (qy_C "full"%string) f0 s1 = (Ok f, s) /\ o_fval s0 = Fin a.
Proof.
  destruct (C60_ex "full"%string (or_introl eq_refl)) as (st' & H & _ & Hf & Hi).
  destruct (last_pass _ _ _ _ _ _ _ _ _ _ _ _ _ H ltac:(lia)) as (f0 & s0 & s1 & f & s & A1 & A2 & A3).
  destruct (o_fval s0) as [a| | |] eqn:Ea; try discriminate A3.
  exists 5%nat, (Fin (qF I2 [0; 0]%R 0%R [0; 0]%R)), (o_x st'), (RVec.fv [0; 0]%R), (fm I2), st', f0, s0, s1, f, s, a. auto.
Qed.

(** ** C15: the option mu is documented as "acceptance threshold for trust region ratio"; steps are accepted below it.
    x^2 with an underestimated Hessian (17/16 instead of 2), one iteration from 1/4 with default mu = 1/4 *)
Definition soft_square (_ : nat) (x : list F64) : retval F64 :=
  RTuple [PScal (dot x x); PVec (vscale n2 x); PMat (List.length x) (map (vscale (nofZ 17 / nofZ 16)) (eye (List.length x)))].
Theorem C15_mu_refuted : exists C st0 fv x g h st',
  optimizer_init (fun _ => false) (repeat (- ninf) 1) (repeat ninf 1) [(KStr "maxiter"%string, VInt 1)] None false [] = Ok (C, st0)
  /\ minimize (world soft_square) C 2 1 [nofZ 1 / nofZ 4] None H0None st0 = (Ok (fv, x, g, h), st')
  /\ o_iter st' = 1%Z /\ o_tr_ratio st' <=? op_mu (c_opts C) = true
  /\ (exists p r, nth_error (o_evals st') 1 = Some (p, r) /\ deref st' x = p /\ value_of C r = Some fv)
  /\ fv <? (nofZ 1 / nofZ 4) * (nofZ 1 / nofZ 4) = true.
Proof.
  assert (H : run_check soft_square (repeat (- ninf) 1) (repeat ninf 1) [(KStr "maxiter"%string, VInt 1)] None false 2 [nofZ 1 / nofZ 4]
    (fun C fv x g h s => Z.eqb (o_iter s) 1 && (o_tr_ratio s <=? op_mu (c_opts C))
       && match nth_error (o_evals s) 1 with
          | Some (p, r) => veq (deref s x) p && match value_of C r with Some v => feq v fv | None => false end
          | None => false end
       && (fv <? (nofZ 1 / nofZ 4) * (nofZ 1 / nofZ 4))) = true) by (vm_compute; reflexivity).
  apply run_witness in H. destruct H as (C & st0 & fv & x & g & h & s & H0 & H1 & H2).
  apply andb_true_iff in H2 as [H2 H5]. apply andb_true_iff in H2 as [H2 H4]. apply andb_true_iff in H2 as [H2 H3].
  exists C, st0, fv, x, g, h, s. split; [exact H0|]. split; [exact H1|]. split; [now apply Z.eqb_eq|]. split; [exact H3|]. split; [|exact H5].
  destruct (nth_error (o_evals s) 1) as [[p r]|]; [|discriminate H4]. apply andb_true_iff in H4 as [H4 H6].
  exists p, r. split; [reflexivity|]. split; [now apply veq_eq|]. destruct (value_of C r); [|discriminate H6]. f_equal. now apply feq_eq.
Qed.
