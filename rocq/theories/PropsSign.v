(** C119: Gerchberg-Saxton with a target that changes sign. *)
From Coq Require Import Reals Lra ZArith Arith List Bool Lia.
From Coquelicot Require Import Complex.
From Verif Require Import Cx Sums PyBase ProfileModel SlmModel LibModel DmdModel SimModel SimSpec SimExamples DmdSpec DmdExamples HoloSpec HoloThms SignFacts.
Open Scope R_scope.

(** A hologram that displays the magnitude of the target exactly is spoilt by one iteration when the target changes sign. *)
Theorem C119_refuted : exists h l input target F T u p p',
  full_input h (l_slm l) input F /\ real_target h (l_slm l) target T /\
  (forall i j, in_slm (l_slm l) i j -> F i j = RtoC 1 /\ 0 <= u i j < 1) /\
  stores (l_slm l) (calculate_hologram h l input target MGs (gs_kwargs 0) u) p /\
  stores (l_slm l) (calculate_hologram h l input target MGs (gs_kwargs 1) u) p' /\
  image_error (s_Ny (l_slm l)) (s_Nx (l_slm l)) F (fun i j => Rabs (T i j)) p = 0 /\ 4 / 117 <= image_error (s_Ny (l_slm l)) (s_Nx (l_slm l)) F (fun i j => Rabs (T i j)) p'.
Proof. exact signed_refutes. Qed.
Print Assumptions C119_refuted.
(** Why: each iteration inverts the signs. From an image that is the target times phase factors W the next hologram aims at |target| W, from |target| W it aims at the target times W. *)
Theorem C119_iterations_alternate : forall h l input target F T u0 W, full_input h (l_slm l) input F -> real_target h (l_slm l) target T ->
  let ny := s_Ny (l_slm l) in let nx := s_Nx (l_slm l) in let I := image_of ny nx (modulated F (fun i j => 2 * PI * u0 i j)) in
  (forall u v, in_slm (l_slm l) u v -> Cmod (W u v) = 1) ->
  exists phi, stores (l_slm l) (calculate_hologram h l input target MGs (gs_kwargs 1) u0) phi /\
    ((forall u v, in_slm (l_slm l) u v -> I u v = (RtoC (T u v) * W u v)%C) ->
      forall i j, in_slm (l_slm l) i j -> let B := spectrum_of ny nx (fun u v => (RtoC (Rabs (T u v)) * W u v)%C) i j in B = (RtoC (Cmod B) * cis (phi i j))%C) /\
    ((forall u v, in_slm (l_slm l) u v -> I u v = (RtoC (Rabs (T u v)) * W u v)%C) ->
      forall i j, in_slm (l_slm l) i j -> let B := spectrum_of ny nx (fun u v => (RtoC (T u v) * W u v)%C) i j in B = (RtoC (Cmod B) * cis (phi i j))%C).
Proof. exact sign_dropped. Qed.
Print Assumptions C119_iterations_alternate.
(** The hypotheses on three pixels: the target 2/3, 1/3, -2/3 and a start that displays its magnitude. *)
Example C119_case : full_input ex_heap slm3 flat3 (fun _ _ => RtoC 1) /\ real_target ex_heap slm3 bright3 T3s /\ (forall u v, in_slm slm3 u v -> Cmod (W3s u v) = 1) /\
  (forall u v, in_slm slm3 u v -> image_of 1 3 (modulated (fun _ _ => RtoC 1) (fun i j => 2 * PI * u3s i j)) u v = (RtoC (Rabs (T3s u v)) * W3s u v)%C) /\ T3s 0 2 = - (2 / 3).
Proof. exact (conj eq_refl (conj eq_refl (conj (fun u v _ => W3s_unit u v) (conj start3 eq_refl)))). Qed.
