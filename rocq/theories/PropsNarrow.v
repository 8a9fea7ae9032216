(** Narrow beams in single precision (C132). *)
From Coq Require Import Reals Lra Lia ZArith Arith.
From Coquelicot Require Import Complex.
From Verif Require Import Cx PyBase ProfileModel SlmModel LibModel DmdModel SimModel SimSpec SimExamples DmdSpec FloatModel FloatSpec FloatFacts FloatFacts4 ModeSpec FlModeModel NarrowSpec NarrowFacts NarrowFacts2.
Open Scope R_scope.

(** A DLP9500 and a beam of at most 1 mm: every hologram is blank in single precision, though the exact beam gives a positive efficiency. *)
Theorem C132_refuted : forall wl fl per th neg h A w target T kw ru m, let d := DLP9500 wl fl per th neg in let s := d_slm d in
  0 < wl -> 0 < fl -> per <> 0 -> A <> 0 -> / 2 ^ 90 <= w <= 1 / 1000 -> full_target h s target T -> spectrum_of (s_Ny s) (s_Nx s) T 0 0 <> RtoC 0 -> (forall i j, 0 <= ru i j) ->
  m = MSimple \/ m = MRandom ->
  (exists eta, 0 < eta /\ snd (calculate_dmd_state h d (exact_beam s A w) target m None kw ru) = Ok (Fin eta)) /\
  blank d (calculate_dmd_state h d (rounded_beam single s exp32 A w) target m None kw ru).
Proof. exact blank_instead. Qed.
Print Assumptions C132_refuted.
(** Any device, arithmetic and exponential. *)
Theorem C132_blank_hologram : forall a u eta u' eta' B B' f_exp K kx ky h d A w target T wa W kw ru, let s := d_slm d in let b := rounded_beam a s f_exp A w in
  arithmetic u eta B (rnd a) -> arithmetic u' eta' B' (dbl a) -> (2 ^ 22 <= B)%Z -> (2 ^ 22 <= B')%Z ->
  0 <= u <= / 2 ^ 24 -> 0 <= eta <= / 2 ^ 124 -> underflows f_exp K -> (K <= kx * kx + ky * ky)%Z -> narrow s w kx ky -> / 2 ^ 90 <= pixel_size s ->
  (0 < Z.of_nat (s_Ny s) <= 2 ^ 20)%Z -> (0 < Z.of_nat (s_Nx s) <= 2 ^ 20)%Z -> d_p d <> 0 -> scaling_factor s <> 0 ->
  full_target h s target T -> window_reads h s wa W -> windowed d T W 0 0 <> RtoC 0 ->
  blank d (calculate_dmd_state h d b target MSimple wa kw ru) /\
  ((forall i j, 0 <= ru i j) -> blank d (calculate_dmd_state h d b target MRandom wa kw ru)) /\
  (snd (calculate_dmd_state h d b target MIdeal wa kw ru) = Ok (Fin 0) /\ forall i j, in_array d i j ->
     cell_at (d_state (fst (calculate_dmd_state h d b target MIdeal wa kw ru))) i j = CFloat (Fin 0) \/ cell_at (d_state (fst (calculate_dmd_state h d b target MIdeal wa kw ru))) i j = CFloat NaN).
Proof. exact narrow_hologram. Qed.
Print Assumptions C132_blank_hologram.
(** Beams narrow enough for the three panels; the exponential of single precision underflows. *)
Theorem C132_panels : forall wl fl per th neg w, / 2 ^ 90 <= w ->
  (w <= 1 / 1000 -> narrow (d_slm (DLP9500 wl fl per th neg)) w 10 5 /\ narrow (d_slm (DLP9000 wl fl per th neg)) w 9 6) /\
  (w <= 66 / 100000 -> narrow (d_slm (DLP7000 wl fl per th neg)) w 10 7).
Proof. exact narrow_panels. Qed.
Print Assumptions C132_panels.
Theorem C132_underflow : underflows exp32 110.
Proof. exact exp32_underflows. Qed.
Print Assumptions C132_underflow.
(** Without rounding the sampled formula is the documented mode. *)
Theorem C132_no_rounding : forall x0 y0 A w x y, w <> 0 -> fl_gaussian exact exp x0 y0 A w x y = hg_mode x0 y0 A w 0 0 x y.
Proof. exact link_gaussian. Qed.
Print Assumptions C132_no_rounding.
(** A spot in the middle as the target, a waist of 1 mm, single precision. *)
Example C132_case : let s := d_slm (DLP9500 (369 / 1000000000) (200 / 1000) 4 (PI / 4) false) in
  let T := fun u v => if andb (Nat.eqb u 540) (Nat.eqb v 960) then RtoC 1 else RtoC 0 in
  full_target ex_heap s (AConstC (T2 1080 1920 T)) T /\ spectrum_of (s_Ny s) (s_Nx s) T 0 0 <> RtoC 0 /\ / 2 ^ 90 <= 1 / 1000 <= 1 / 1000 /\
  arithmetic (/ 2 ^ 24) (/ 2 ^ 150) (2 ^ 24) (rnd single) /\ arithmetic (/ 2 ^ 53) (/ 2 ^ 1075) (2 ^ 53) (dbl single).
Proof.
  cbv zeta. split; [reflexivity|]. split. { apply one_pixel; apply Nat.ltb_lt; reflexivity. }
  split; [|exact (conj binary32_arithmetic binary64_arithmetic)]. split; [|lra].
  apply Rle_trans with (/ 2 ^ 20); [apply Rinv_le_contravar; [apply pow_lt; lra|apply Rle_pow; [lra|lia]]|]. rewrite pow_inv_20. lra.
Qed.
