(** The reported origin of the first order as real numbers. *)
From Coq Require Import Reals Lra.
From Verif Require Import PyBase SlmModel DmdModel.
Open Scope R_scope.
Definition origin_of (d : dmd) : R * R :=
  (cos (d_theta d) * scaling_factor (d_slm d) / d_p d, sin (d_theta d) * scaling_factor (d_slm d) / d_p d).
Lemma origin_fin d : d_p d <> 0 -> first_order_origin d = (Fin (fst (origin_of d)), Fin (snd (origin_of d))).
Proof. intros H. unfold first_order_origin, xdiv. destruct (Req_EM_T (d_p d) 0); [contradiction|]. reflexivity. Qed.
Lemma origin_inv d x y : first_order_origin d = (Fin x, Fin y) -> d_p d <> 0 /\ origin_of d = (x, y).
Proof.
  unfold first_order_origin, xdiv. destruct (Req_EM_T (d_p d) 0) as [->|N].
  - destruct (Rlt_dec 0 _); [discriminate|]. destruct (Rlt_dec _ 0); discriminate.
  - intros H. injection H as <- <-. split; [exact N|reflexivity].
Qed.
Lemma xdiv_neg x y : xdiv (Fin (- x)) (Fin y) = xneg (xdiv (Fin x) (Fin y)).
Proof.
  unfold xdiv. destruct (Req_EM_T y 0) as [_|N]; [|cbn [xneg]; f_equal; unfold Rdiv; ring].
  destruct (Rlt_dec 0 (- x)), (Rlt_dec (- x) 0), (Rlt_dec 0 x), (Rlt_dec x 0); try reflexivity; exfalso; lra.
Qed.
