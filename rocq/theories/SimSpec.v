(** Vocabulary for stating grid and simulation properties, independent of how the code computes things. *)
From Coq Require Import Reals ZArith Arith List Bool Lia.
From Coquelicot Require Import Complex.
From Verif Require Import Cx Sums PyBase ProfileModel SlmModel LibModel DmdModel SimModel.
Open Scope R_scope.

(** [grid_is g ny nx X Y]: g is a pair of ny x nx arrays holding X i j and Y i j. *)
Definition grid_is (g : tensor R * tensor R) (ny nx : nat) (X Y : nat -> nat -> R) : Prop :=
  teq (fst g) (T2 ny nx X) /\ teq (snd g) (T2 ny nx Y).
(** [field_is o ny nx f]: a result attribute holds an ny x nx array with entries f. *)
Definition field_is (o : option (tensor C)) (ny nx : nat) (f : nat -> nat -> C) : Prop :=
  match o with Some t => teq t (T2 ny nx f) | None => False end.
(** Total power of a field sampled on cells of the given area. *)
Definition power_of (area : R) (ny nx : nat) (f : nat -> nat -> C) : R :=
  area * rsum2 ny nx (fun i j => Cmod (f i j) ^ 2).

(** Padded array sizes. *)
Definition NY (s : slm) (m : sim) : nat := Z.to_nat (Z.of_nat (s_Ny s) + 2 * pad_y m).
Definition NX (s : slm) (m : sim) : nat := Z.to_nat (Z.of_nat (s_Nx s) + 2 * pad_x m).
(** Power of the difference of two simulated images. *)
Definition difference_power (s : slm) (m : sim) (I I' : nat -> nat -> C) : R :=
  power_of (scaling_factor s ^ 2 / (INR (NX s m) * INR (NY s m) * pixel_size s ^ 2)) (NY s m) (NX s m) (fun u v => (I u v - I' u v)%C).
(** The input argument converts to a full-size array with entries F; the device's transmission is S. *)
Definition full_input (h : heap) (s : slm) (a : parg) (F : nat -> nat -> C) : Prop :=
  profile_to_tensor_c h s a true = Ok (T2 (s_Ny s) (s_Nx s) F).
Definition full_state (dev : device) (S : nat -> nat -> C) : Prop :=
  state_tensor dev = Ok (T2 (s_Ny (dev_slm dev)) (s_Nx (dev_slm dev)) S).
(** The unit phase separating the transform from the physical kernel when a padded size is odd. *)
Definition odd_phase (ny nx u v : nat) : C :=
  cis (2 * PI * ((INR ny / 2 - INR (ny / 2)) * IZR (Z.of_nat u - Z.of_nat (ny / 2)) / INR ny
               + (INR nx / 2 - INR (nx / 2)) * IZR (Z.of_nat v - Z.of_nat (nx / 2)) / INR nx)).
(** Blanking of the open disc of radius r. *)
Definition blanked (x y r : R) (z : C) : C := if Rlt_dec (x ^ 2 + y ^ 2) (r ^ 2) then RtoC 0 else z.
Definition block_radius (d : dmd) (r : option R) : R :=
  match r with Some r => r | None => wavelength (d_slm d) * focal_length (d_slm d) / d_p d / 2 end.
(** The Python value is an integer (True and False count as 1 and 0) equal to z. *)
Definition int_arg (a : pyarg) (z : Z) : Prop := a = PyInt z \/ (a = PyBool true /\ z = 1%Z) \/ (a = PyBool false /\ z = 0%Z).
(** The index z lies in an array of n entries. *)
Definition inside (n : nat) (z : Z) : Prop := (0 <= z < Z.of_nat n)%Z.
(** E' is E moved down by dy rows and right by dx columns (negative: up, left), no light crossing the border of the array. *)
Definition moved (s : slm) (dy dx : Z) (E E' : nat -> nat -> C) : Prop :=
  forall i j, (i < s_Ny s)%nat -> (j < s_Nx s)%nat ->
  (forall i' j', (i' < s_Ny s)%nat -> (j' < s_Nx s)%nat -> Z.of_nat i' = (Z.of_nat i + dy)%Z -> Z.of_nat j' = (Z.of_nat j + dx)%Z -> E' i' j' = E i j) /\
  (~ (inside (s_Ny s) (Z.of_nat i + dy) /\ inside (s_Nx s) (Z.of_nat j + dx)) -> E i j = RtoC 0) /\
  (~ (inside (s_Ny s) (Z.of_nat i - dy) /\ inside (s_Nx s) (Z.of_nat j - dx)) -> E' i j = RtoC 0).
