(** Image-plane coordinates (C138) and windows (C139) in floating point. *)
From Coq Require Import Reals Lra Lia ZArith Arith List Bool.
From Verif Require Import Cx PyBase ProfileModel SlmModel LibModel DmdModel SimModel SimSpec FloatModel FloatSpec FloatFacts FloatFacts4 FlGridModel FlGridSpec FlGridFacts2 FlWinFacts FlWinFacts2 FlWinFacts3.
Open Scope R_scope.

(** The image-plane grid as computed: columns and rows separate, strictly ordered, the axis exactly at the pixel (Ny // 2, Nx // 2), mirror-symmetric to
    the last bit, relative error about three roundings in the backend's precision and four in Python's. *)
Theorem C138_image_grid_after_rounding : forall a u eta u' eta' B B' s, arithmetic u eta B (rnd a) -> arithmetic u' eta' B' (dbl a) -> (2 ^ 22 <= B)%Z -> (2 ^ 22 <= B')%Z ->
  0 <= u <= / 2 ^ 24 -> 0 <= u' <= / 2 ^ 24 -> (Z.of_nat (s_Ny s) <= 2 ^ 20)%Z -> (Z.of_nat (s_Nx s) <= 2 ^ 20)%Z -> 0 < pixel_size s -> 0 < wavelength s * focal_length s ->
  let nx := s_Nx s in let ny := s_Ny s in let ps := pixel_size s in let sf := wavelength s * focal_length s in
  no_underflow u eta u' eta' nx ps sf -> no_underflow u eta u' eta' ny ps sf ->
  exists X Y, grid_is (fl_image_plane_grid a s) ny nx (fun _ j => X j) (fun i _ => Y i) /\
    (forall j j', (j < j' < nx)%nat -> X j < X j') /\ (forall i i', (i < i' < ny)%nat -> Y i' < Y i) /\
    X (nx / 2)%nat = 0 /\ Y (ny / 2)%nat = 0 /\
    (forall j j', (j + j' = 2 * (nx / 2))%nat -> X j = - X j') /\ (forall i i', (i + i' = 2 * (ny / 2))%nat -> Y i = - Y i') /\
    (forall j, (j < nx)%nat -> Rabs (X j - image_coordinate nx ps sf j) <= (301 / 100 * u + 401 / 100 * u') * Rabs (image_coordinate nx ps sf j)) /\
    (forall i, (i < ny)%nat -> Rabs (Y i + image_coordinate ny ps sf i) <= (301 / 100 * u + 401 / 100 * u') * Rabs (image_coordinate ny ps sf i)).
Proof. exact (fun a u eta u' eta' B B' s H H' HB HB' Hu Hu' Hy Hx Hp Hw => image_grid_rounded a u eta u' eta' B B' H H' HB HB' Hu Hu' (s_Nx s) (s_Ny s) (pixel_size s) (wavelength s * focal_length s) Hy Hx Hp Hw). Qed.
Print Assumptions C138_image_grid_after_rounding.
(** The same for the finer grid of a simulation with padding. *)
Theorem C138_padded_grid_after_rounding : forall a u eta u' eta' B B' s m, arithmetic u eta B (rnd a) -> arithmetic u' eta' B' (dbl a) -> (2 ^ 22 <= B)%Z -> (2 ^ 22 <= B')%Z ->
  0 <= u <= / 2 ^ 24 -> 0 <= u' <= / 2 ^ 24 -> (0 <= pad_x m)%Z -> (0 <= pad_y m)%Z -> let nx := (s_Nx s + 2 * Z.to_nat (pad_x m))%nat in let ny := (s_Ny s + 2 * Z.to_nat (pad_y m))%nat in
  (Z.of_nat ny <= 2 ^ 20)%Z -> (Z.of_nat nx <= 2 ^ 20)%Z -> 0 < pixel_size s -> 0 < wavelength s * focal_length s ->
  let ps := pixel_size s in let sf := wavelength s * focal_length s in
  no_underflow u eta u' eta' nx ps sf -> no_underflow u eta u' eta' ny ps sf ->
  exists X Y, grid_is (fl_image_plane_padded_grid a s m) ny nx (fun _ j => X j) (fun i _ => Y i) /\
    (forall j j', (j < j' < nx)%nat -> X j < X j') /\ (forall i i', (i < i' < ny)%nat -> Y i' < Y i) /\
    X (nx / 2)%nat = 0 /\ Y (ny / 2)%nat = 0 /\
    (forall j j', (j + j' = 2 * (nx / 2))%nat -> X j = - X j') /\ (forall i i', (i + i' = 2 * (ny / 2))%nat -> Y i = - Y i') /\
    (forall j, (j < nx)%nat -> Rabs (X j - image_coordinate nx ps sf j) <= (301 / 100 * u + 401 / 100 * u') * Rabs (image_coordinate nx ps sf j)) /\
    (forall i, (i < ny)%nat -> Rabs (Y i + image_coordinate ny ps sf i) <= (301 / 100 * u + 401 / 100 * u') * Rabs (image_coordinate ny ps sf i)).
Proof. exact padded_image_grid. Qed.
Print Assumptions C138_padded_grid_after_rounding.
(** Single precision, pixel sizes and scaling factors above 10^-12: no further condition, relative error 2^-22. *)
Theorem C138_single : forall s, (0 < s_Ny s)%nat -> (0 < s_Nx s)%nat -> (Z.of_nat (s_Ny s) <= 2 ^ 20)%Z -> (Z.of_nat (s_Nx s) <= 2 ^ 20)%Z -> / 2 ^ 40 <= pixel_size s <= 1 -> / 2 ^ 40 <= wavelength s * focal_length s ->
  let nx := s_Nx s in let ny := s_Ny s in let ps := pixel_size s in let sf := wavelength s * focal_length s in
  exists X Y, grid_is (fl_image_plane_grid single s) ny nx (fun _ j => X j) (fun i _ => Y i) /\
    (forall j j', (j < j' < nx)%nat -> X j < X j') /\ (forall i i', (i < i' < ny)%nat -> Y i' < Y i) /\
    (forall j, (j < nx)%nat -> Rabs (X j - image_coordinate nx ps sf j) <= 4 * / 2 ^ 24 * Rabs (image_coordinate nx ps sf j)) /\
    (forall i, (i < ny)%nat -> Rabs (Y i + image_coordinate ny ps sf i) <= 4 * / 2 ^ 24 * Rabs (image_coordinate ny ps sf i)).
Proof. exact (fun s => image_grid_single (s_Nx s) (s_Ny s) (pixel_size s) (wavelength s * focal_length s)). Qed.
Print Assumptions C138_single.
Theorem C138_no_rounding : forall s m, fl_image_plane_grid exact s = image_plane_grid s /\ fl_image_plane_padded_grid exact s m = image_plane_padded_grid s m.
Proof. exact (fun s m => conj (link_image_grid _ _ _ _) (link_image_grid _ _ _ _)). Qed.
Print Assumptions C138_no_rounding.
(** A DLP9500 with a 200 mm lens at 400 nm. *)
Definition bench : slm := {| wavelength := 4 / 10000000; focal_length := 1 / 5; s_Nx := 1920; s_Ny := 1080; pixel_size := 108 / 10000000 |}.
Example C138_case : exists X Y, grid_is (fl_image_plane_grid single bench) 1080 1920 (fun _ j => X j) (fun i _ => Y i) /\ X 0%nat < X 1919%nat /\ Y 1079%nat < Y 0%nat.
Proof.
  destruct (C138_single bench) as (X & Y & G & MX & MY & _); cbn [bench s_Ny s_Nx pixel_size wavelength focal_length]; [lia|lia|lia|lia|lra|lra|].
  exists X, Y. split; [exact G|]. split; [apply MX|apply MY]; cbn [bench s_Nx s_Ny]; lia.
Qed.

(** A rectangular window sampled on the image-plane grid agrees with the wanted window except within [edge] of its sides. *)
Theorem C139_rectangle : forall a u eta u' eta' B B' s X Y x0 y0 wx wy i j, arithmetic u eta B (rnd a) -> arithmetic u' eta' B' (dbl a) -> (2 ^ 22 <= B)%Z -> (2 ^ 22 <= B')%Z ->
  0 <= u <= / 2 ^ 24 -> 0 <= u' <= u -> 0 <= eta <= 1 -> (Z.of_nat (s_Ny s) <= 2 ^ 20)%Z -> (Z.of_nat (s_Nx s) <= 2 ^ 20)%Z -> 0 < pixel_size s -> 0 < wavelength s * focal_length s ->
  let nx := s_Nx s in let ny := s_Ny s in let ps := pixel_size s in let sf := wavelength s * focal_length s in
  no_underflow u eta u' eta' nx ps sf -> no_underflow u eta u' eta' ny ps sf -> grid_is (fl_image_plane_grid a s) ny nx X Y -> (i < ny)%nat -> (j < nx)%nat ->
  let x := image_coordinate nx ps sf j in let y := - image_coordinate ny ps sf i in
  (Rabs (x - x0) + edge u eta x x0 wx < wx / 2 -> Rabs (y - y0) + edge u eta y y0 wy < wy / 2 -> fl_rect_value a x0 y0 wx wy (X i j) (Y i j) = 1) /\
  (wx / 2 + edge u eta x x0 wx <= Rabs (x - x0) \/ wy / 2 + edge u eta y y0 wy <= Rabs (y - y0) -> fl_rect_value a x0 y0 wx wy (X i j) (Y i j) = 0).
Proof. exact (fun a u eta u' eta' B B' s X Y x0 y0 wx wy i j H H' HB HB' Hu Hu' He Hy Hx Hp Hw Ux Uy G => rectangle_sampled a u eta u' eta' B B' (s_Nx s) (s_Ny s) (pixel_size s) (wavelength s * focal_length s) X Y H H' HB HB' Hu Hu' He Hy Hx Hp Hw Ux Uy G x0 y0 wx wy i j). Qed.
Print Assumptions C139_rectangle.
(** A circular window: except within [rim] of the circle. *)
Theorem C139_circle : forall a u eta u' eta' B B' s X Y x0 y0 r i j, arithmetic u eta B (rnd a) -> arithmetic u' eta' B' (dbl a) -> (2 ^ 22 <= B)%Z -> (2 ^ 22 <= B')%Z ->
  0 <= u <= / 2 ^ 24 -> 0 <= u' <= u -> 0 <= eta <= 1 -> (Z.of_nat (s_Ny s) <= 2 ^ 20)%Z -> (Z.of_nat (s_Nx s) <= 2 ^ 20)%Z -> 0 < pixel_size s -> 0 < wavelength s * focal_length s ->
  let nx := s_Nx s in let ny := s_Ny s in let ps := pixel_size s in let sf := wavelength s * focal_length s in
  no_underflow u eta u' eta' nx ps sf -> no_underflow u eta u' eta' ny ps sf -> grid_is (fl_image_plane_grid a s) ny nx X Y -> 4 * eta <= u * r ^ 2 -> (i < ny)%nat -> (j < nx)%nat ->
  let x := image_coordinate nx ps sf j in let y := - image_coordinate ny ps sf i in let d := sqrt ((x - x0) ^ 2 + (y - y0) ^ 2) in
  (d + rim u eta x y x0 y0 r <= Rabs r -> fl_circ_value a x0 y0 r (X i j) (Y i j) = 1) /\
  (Rabs r + rim u eta x y x0 y0 r < d -> fl_circ_value a x0 y0 r (X i j) (Y i j) = 0).
Proof. exact (fun a u eta u' eta' B B' s X Y x0 y0 r i j H H' HB HB' Hu Hu' He Hy Hx Hp Hw Ux Uy G => circle_sampled a u eta u' eta' B B' (s_Nx s) (s_Ny s) (pixel_size s) (wavelength s * focal_length s) X Y H H' HB HB' Hu Hu' He Hy Hx Hp Hw Ux Uy G x0 y0 r i j). Qed.
Print Assumptions C139_circle.
(** In single precision a window of 2 m + 1 by 2 l + 1 pitches centred on a pixel selects exactly the 2 m + 1 by 2 l + 1 pixels around it. *)
Theorem C139_pixel_window_single : forall s X Y ci cj m l i j, / 2 ^ 40 <= pixel_size s <= 1 -> / 2 ^ 40 <= wavelength s * focal_length s ->
  let nx := s_Nx s in let ny := s_Ny s in let ps := pixel_size s in let sf := wavelength s * focal_length s in grid_is (fl_image_plane_grid single s) ny nx X Y ->
  (Z.of_nat nx <= 2 ^ 14)%Z -> (Z.of_nat ny <= 2 ^ 14)%Z -> (ci < ny)%nat -> (cj < nx)%nat -> (m <= nx)%nat -> (l <= ny)%nat -> (i < ny)%nat -> (j < nx)%nat ->
  fl_rect_value single (image_coordinate nx ps sf cj) (- image_coordinate ny ps sf ci) ((2 * INR m + 1) * (sf / (INR nx * ps))) ((2 * INR l + 1) * (sf / (INR ny * ps))) (X i j) (Y i j) =
  if ((j <=? cj + m) && (cj <=? j + m) && (i <=? ci + l) && (ci <=? i + l))%nat%bool then 1 else 0.
Proof. exact (fun s => pixel_window_single (s_Nx s) (s_Ny s) (pixel_size s) (wavelength s * focal_length s)). Qed.
Print Assumptions C139_pixel_window_single.
(** Exactly, whatever the rounding: a larger window contains a smaller one, a window of no width is empty, a centred window is mirror-symmetric. *)
Theorem C139_nested : forall a u eta B x0 y0 x y, arithmetic u eta B (rnd a) -> (2 ^ 22 <= B)%Z ->
  (forall wx wy wx' wy', wx <= wx' -> wy <= wy' -> fl_rect_value a x0 y0 wx wy x y <= fl_rect_value a x0 y0 wx' wy' x y) /\
  (forall r r', Rabs r <= Rabs r' -> fl_circ_value a x0 y0 r x y <= fl_circ_value a x0 y0 r' x y) /\
  (forall wx wy, wx <= 0 \/ wy <= 0 -> fl_rect_value a x0 y0 wx wy x y = 0) /\
  (forall wx wy, fl_rect_value a 0 0 wx wy (- x) y = fl_rect_value a 0 0 wx wy x y /\ fl_rect_value a 0 0 wx wy x (- y) = fl_rect_value a 0 0 wx wy x y) /\
  (forall r, fl_circ_value a 0 0 r (- x) y = fl_circ_value a 0 0 r x y /\ fl_circ_value a 0 0 r x (- y) = fl_circ_value a 0 0 r x y).
Proof. exact windows_exact. Qed.
Print Assumptions C139_nested.
Theorem C139_no_rounding : forall x0 y0 wx wy r x y, fl_rect_value exact x0 y0 wx wy x y = rect_value x0 y0 wx wy x y /\ fl_circ_value exact x0 y0 r x y = circ_value x0 y0 r x y.
Proof. exact (fun x0 y0 wx wy r x y => conj (link_rect x0 y0 wx wy x y) (link_circ x0 y0 r x y)). Qed.
Print Assumptions C139_no_rounding.
(** The window of 101 by 101 pixels in the middle of the image plane of the bench, in single precision: its corner is inside, the pixel next to it is outside. *)
Example C139_case : forall X Y, grid_is (fl_image_plane_grid single bench) 1080 1920 X Y -> let ps := 108 / 10000000 in let sf := 4 / 10000000 * (1 / 5) in
  let win i j := fl_rect_value single (image_coordinate 1920 ps sf 960) (- image_coordinate 1080 ps sf 540) ((2 * INR 50 + 1) * (sf / (INR 1920 * ps))) ((2 * INR 50 + 1) * (sf / (INR 1080 * ps))) (X i j) (Y i j) in
  win 490%nat 1010%nat = 1 /\ win 490%nat 1011%nat = 0.
Proof.
  intros X Y G ps sf win. assert (Hp : / 2 ^ 40 <= pixel_size bench <= 1) by (cbn [bench pixel_size]; lra).
  assert (Hs : / 2 ^ 40 <= wavelength bench * focal_length bench) by (cbn [bench wavelength focal_length]; lra).
  split; [apply (C139_pixel_window_single bench X Y 540 960 50 50 490 1010 Hp Hs G)|apply (C139_pixel_window_single bench X Y 540 960 50 50 490 1011 Hp Hs G)]; cbn [bench s_Nx s_Ny]; lia.
Qed.
