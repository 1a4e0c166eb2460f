(** C52: hess0 = 'hess' with the purely iterative schemes *)
From Coq Require Import String ZArith List Bool.
From Verif Require Import Num HessApprox Constants Minimize.
Import ListNotations.

Section HessString.
  Context {T : Type} {N : Num T} {NI : NumInt T}.

  Lemma bind_eq {A B} (m : M T A) (f g : A -> M T B) s :
    (forall a s', m s = (Ok a, s') -> f a s' = g a s') -> bind m f s = bind m g s.
  Proof. intros H. unfold bind. destruct (m s) as [[a|e] s'] eqn:E; auto. Qed.

  (** The documentation of minimize says that hess0='hess' starts from "the initial Hessian from the objective function
      evaluation at x0".  With BFGS, DFP, SR1, Broyden, BG and BB the objective is asked for two values only, so there is no such
      Hessian, and 'hess' silently means the identity, exactly as if hess0 had not been given. *)
  Theorem C52_hess_string_refuted : forall parses lb ub d (i : ihapp T) resfun files (C : cfg T) st0,
    optimizer_init parses lb ub d (Some (HIter i)) resfun files = Ok (C, st0) ->
    forall E fuel ndim x0 sid st,
      minimize E C fuel ndim x0 sid (H0Hess) st = minimize E C fuel ndim x0 sid (H0None) st.
  Proof.
    intros parses lb ub d i resfun files C st0 Hi E fuel ndim x0 sid st.
    assert (HC : c_nargout C = 2%nat /\ c_resfun C = false).
    { unfold optimizer_init in Hi. cbn [requires_resfun nargout_of requires_hess andb rbind] in Hi. destruct resfun; cbn [Bool.eqb rbind] in Hi; [discriminate|].
      destruct (validate_options parses d); cbn [rbind] in Hi; [|discriminate]. destruct (opts_of d); cbn [rbind] in Hi; [|discriminate].
      destruct (_ && _) in Hi; [discriminate|]. injection Hi as <- _. split; reflexivity. }
    destruct HC as [H2 Hr]. unfold minimize, bind at 1 4.
    assert (Hp : prepare E C ndim x0 sid H0Hess st = prepare E C ndim x0 sid H0None st).
    { unfold prepare. apply bind_eq. intros _ s1 _. apply bind_eq. intros x s2 _. apply bind_eq. intros _ s3 _.
      destruct (Nat.ltb 1 ndim); [reflexivity|]. destruct (negb _ || _); [reflexivity|].
      apply bind_eq. intros _ s4 _. apply bind_eq. intros s5 s5' _. apply bind_eq. intros _ s6 _.
      apply bind_eq. intros pf s7 Hev.
      assert (Hh : pf_hess pf = PNone).
      { unfold evaluate in Hev. rewrite H2, Hr in Hev. apply (f_equal fst) in Hev. cbn [fst] in Hev. unfold fun_evaluate in Hev.
        destruct (e_obj E _ _) as [| |l]; try discriminate.
        destruct (Nat.eqb_spec (length l) 2); cbn [negb] in Hev; [|discriminate].
        destruct l as [|a [|b [|c l]]]; try discriminate. injection Hev as <-. reflexivity. }
      unfold bind at 1 2. replace (init_hess (length x0) H0Hess pf s7) with (init_hess (length x0) H0None pf s7); [reflexivity|].
      unfold init_hess. rewrite Hh. unfold bind, get, lift. destruct (o_happ s7); reflexivity. }
    rewrite Hp. reflexivity.
  Qed.
End HessString.

(** the hypothesis is met: an optimizer with BFGS and default options *)
From Verif Require Import ER F64 Witness.
Example C52_hess_string_ex : exists C st0,
  optimizer_init (fun _ => false) [fz (-10)] [fz 10] [] (Some (HIter (mkIhapp (BFGS false) hb_empty))) false [] = Ok (C, st0)
  /\ c_nargout C = 2%nat.
Proof.
  assert (H : match optimizer_init (fun _ => false) [fz (-10)] [fz 10] [] (Some (HIter (mkIhapp (BFGS false) hb_empty))) false [] with
              | Ok (C, _) => Nat.eqb (c_nargout C) 2 | Err _ => false end = true) by (vm_compute; reflexivity).
  destruct (optimizer_init _ _ _ _ _ _ _) as [[C st0]|e]; [|discriminate].
  exists C, st0. split; [reflexivity|]. now apply Nat.eqb_eq.
Qed.
