(** Model of pySLM2/slm.py, class SLM: coordinate conversions, grids, profile_to_tensor. *)
From Coq Require Import Reals ZArith Arith List Bool Lia.
From Coquelicot Require Import Complex.
From Verif Require Import Cx Sums PyBase ProfileModel.
Import ListNotations.
Open Scope R_scope.

(** slm.py:49-56. *)
Record slm := { wavelength : R; focal_length : R; s_Nx : nat; s_Ny : nat; pixel_size : R }.
Definition scaling_factor (s : slm) : R := wavelength s * focal_length s.

(** slm.py:83-88. *)
Definition pixel_to_coord (s : slm) (i j : R) : R * R :=
  let i := INR (s_Ny s) - i in
  let j := j - INR (s_Nx s) / 2 in
  let i := i - INR (s_Ny s) / 2 in
  (j * pixel_size s, i * pixel_size s).
(** slm.py:91-97. *)
Definition coord_to_pixel (s : slm) (x y : R) : R * R :=
  let x := x / pixel_size s in
  let y := y / pixel_size s in
  let i := y + INR (s_Ny s) / 2 in
  let j := x + INR (s_Nx s) / 2 in
  let i := INR (s_Ny s) - i in
  (i, j).

(** tf.range(a, b) / np.arange(a, b) for integers. *)
Definition arange (a b : Z) : list Z := map (fun k => (a + Z.of_nat k)%Z) (seq 0 (Z.to_nat (b - a))).
(** tf.meshgrid(I, J, indexing="ij") and tf.meshgrid(X, Y) (default "xy"): shape (len I, len J), resp.
    (len Y, len X). *)
Definition mesh_ij (I J : list R) : tensor R * tensor R :=
  (T2 (length I) (length J) (fun i j => nth i I 0), T2 (length I) (length J) (fun i j => nth j J 0)).
Definition mesh_xy (X Y : list R) : tensor R * tensor R :=
  (T2 (length Y) (length X) (fun i j => nth j X 0), T2 (length Y) (length X) (fun i j => nth i Y 0)).
(** Element-wise application of a coordinate map to two grids of the same shape. *)
Definition grid_map (f : R -> R -> R * R) (g : tensor R * tensor R) : tensor R * tensor R :=
  match fst g with
  | T2 ny nx _ => (T2 ny nx (fun i j => fst (f (tget (fst g) i j) (tget (snd g) i j))),
                   T2 ny nx (fun i j => snd (f (tget (fst g) i j) (tget (snd g) i j))))
  | T0 _ => g
  end.
(** slm.py:98-102. *)
Definition fourier_plane_pixel_grid (s : slm) : tensor R * tensor R :=
  mesh_ij (map IZR (arange 0 (Z.of_nat (s_Ny s)))) (map IZR (arange 0 (Z.of_nat (s_Nx s)))).
(** slm.py:104-107. *)
Definition fourier_plane_grid (s : slm) : tensor R * tensor R :=
  grid_map (pixel_to_coord s) (fourier_plane_pixel_grid s).

(** numpy.fft.fftfreq(n, d): [0, 1, ..., (n-1)//2, -(n//2), ..., -1] / (n*d). *)
Definition fftfreq (n : nat) (d : R) : list R :=
  let N := ((Z.of_nat n - 1) / 2 + 1)%Z in
  map (fun k => IZR k * (1 / (INR n * d))) (arange 0 N ++ arange (- (Z.of_nat n / 2)) 0).
(** tf.signal.fftshift of a vector: roll by n//2. *)
Definition fftshift1 (l : list R) : list R :=
  let n := length l in skipn (n - n / 2) l ++ firstn (n - n / 2) l.
(** slm.py:115-123; simulation.py:94-104 is the same with the padded sizes. *)
Definition image_grid_of (nx ny : nat) (ps sf : R) : tensor R * tensor R :=
  let kx := fftshift1 (fftfreq nx ps) in
  let ky := fftshift1 (map Ropp (fftfreq ny ps)) in
  mesh_xy (map (fun k => k * sf) kx) (map (fun k => k * sf) ky).
Definition image_plane_grid (s : slm) : tensor R * tensor R :=
  image_grid_of (s_Nx s) (s_Ny s) (pixel_size s) (scaling_factor s).

(** ** profile_to_tensor (slm.py:131-165). *)
(** The accepted arguments: a profile object, a tf.Tensor (real or complex), an array-like or number handed to
    tf.constant (real or complex). *)
Inductive parg :=
| AProf (p : prof)
| ATensorR (t : tensor R) | ATensorC (t : tensor C)
| AConstR (t : tensor R) | AConstC (t : tensor C).

(** Are all samples of a profile on an ny x nx grid available? *)
Fixpoint all_ok_row {A} (f : nat -> res A) (n : nat) : res unit :=
  match n with O => Ok tt | S k => let! _ := all_ok_row f k in let! _ := f k in Ok tt end.
Fixpoint all_ok {A} (f : nat -> nat -> res A) (ny nx : nat) : res unit :=
  match ny with O => Ok tt | S k => let! _ := all_ok f k nx in all_ok_row (f k) nx end.
Definition val_or0 (r : res val) : val := match r with Ok v => v | Err _ => VR 0 end.
(** profile._func( *grid ): a tensor of the grid's shape, or rank 0 for constant profiles. *)
Definition sample (h : heap) (p : prof) (g : tensor R * tensor R) : res (tensor val) :=
  if scalar_valued p then let! v := func h p 0 0 in Ok (T0 v)
  else match fst g with
       | T2 ny nx _ =>
           let f := fun i j => func h p (tget (fst g) i j) (tget (snd g) i j) in
           let! _ := all_ok f ny nx in
           Ok (T2 ny nx (fun i j => val_or0 (f i j)))
       | T0 _ => Err EUnmodelled
       end.
(** tf.cast to complex / to real (the imaginary part is dropped). *)
Definition cast_c (v : val) : C := to_c v.
Definition cast_r (v : val) : R := match v with VR r => r | VC z => fst z end.
Definition profile_to_tensor_c (h : heap) (s : slm) (a : parg) (at_fourier : bool) : res (tensor C) :=
  match a with
  | AProf p => let! t := sample h p (if at_fourier then fourier_plane_grid s else image_plane_grid s) in
               Ok (tmap cast_c t)
  | ATensorR t | AConstR t => Ok (tmap RtoC t)
  | ATensorC t | AConstC t => Ok t
  end.
Definition profile_to_tensor_r (h : heap) (s : slm) (a : parg) (at_fourier : bool) : res (tensor R) :=
  match a with
  | AProf p => let! t := sample h p (if at_fourier then fourier_plane_grid s else image_plane_grid s) in
               Ok (tmap cast_r t)
  | ATensorR t | AConstR t => Ok t
  | ATensorC t => Ok (tmap fst t)
  | AConstC (T0 _) => Err TypeError                  (* tf.constant(1j, dtype=real) *)
  | AConstC (T2 ny nx f) => Ok (tmap fst (T2 ny nx f)) (* a numpy array is cast first (ComplexWarning) *)
  end.
