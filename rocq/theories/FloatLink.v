(** Without rounding the floating-point model is the exact model (C95-C99). *)
From Coq Require Import Reals Lra Psatz ZArith Arith List Bool Lia Permutation.
From Coquelicot Require Import Complex.
From Verif Require Import Cx Sums PyBase ProfileModel SlmModel LibModel DmdModel AmpFacts FloatModel FloatSpec.
Open Scope R_scope.

Lemma link_grid s i j : fl_to_coordinate exact (s_Ny s) (s_Nx s) (pixel_size s) i j = pixel_to_coord s i j.
Proof. reflexivity. Qed.
Lemma link_index s x y : fl_to_index exact (s_Ny s) (s_Nx s) (pixel_size s) x y = coord_to_pixel s x y.
Proof. reflexivity. Qed.
Lemma link_mask i j d ii jj : fl_circular_mask exact i j d ii jj = circular_mask i j d (INR ii) (INR jj).
Proof. reflexivity. Qed.
Lemma link_ideal neg A pin pout x y p theta : px_ideal neg (Fin A) pin pout x y p theta = Fin (fl_ideal exact neg A pin pout x y p theta).
Proof. unfold px_ideal, fl_ideal, fl_fringe, fl_grating_phase, rel_phase, grating_phase. cbn. do 3 f_equal. lra. Qed.
Lemma link_simple neg A pin pout x y p theta : px_simple neg (Fin A) pin pout x y p theta = fl_simple exact neg A pin pout x y p theta.
Proof.
  unfold px_simple, fl_simple. rewrite link_ideal. unfold xgtb. cbn [rnd exact]. replace (0.5) with (1 / 2) by lra. reflexivity.
Qed.
Lemma link_random neg A pin pout x y p theta r u : -1 <= A <= 1 -> px_random neg (Fin A) pin pout x y p theta r u = fl_random exact neg A pin pout x y p theta r u.
Proof.
  intros HA. unfold px_random, fl_random, random_duty, xasin. destruct (Rle_dec (-1) A); [|lra]. destruct (Rle_dec A 1); [|lra]. cbn [xgtb rnd exact f_asin f_acos f_tanh].
  replace (0.5) with (1 / 2) by lra. reflexivity.
Qed.
Lemma link_ratio p q : fl_ratio exact p q = safe_ratio p q.
Proof. unfold fl_ratio, safe_ratio. destruct (Req_EM_T p 0); [reflexivity|]. destruct (xdiv (Fin p) (Fin q)); reflexivity. Qed.
Lemma link_amplitude ny nx o n i j : fl_amp_scaled exact ny nx o n i j = xdiv (safe_ratio (o i j) (n i j)) (reduce_max (T2 ny nx (fun i j => safe_ratio (o i j) (n i j)))).
Proof.
  unfold fl_amp_scaled. rewrite link_ratio.
  replace (reduce_max (T2 ny nx (fun i j => fl_ratio exact (o i j) (n i j)))) with (reduce_max (T2 ny nx (fun i j => safe_ratio (o i j) (n i j)))).
  2:{ cbn [reduce_max]. induction ny as [|k IH]; [reflexivity|]. cbn [xmax2]. rewrite IH. f_equal. clear. induction nx as [|m IH]; [reflexivity|]. cbn [xmax1]. rewrite IH, link_ratio. reflexivity. }
  destruct (xdiv _ _); reflexivity.
Qed.
Lemma link_product z w : fl_cmul exact z w = (z * w)%C.
Proof. destruct z, w. reflexivity. Qed.
(** All pixels of an array, each once. *)
Definition lsum (f : nat -> nat -> R) (l : list (nat * nat)) : R := fold_right (fun p s => f (fst p) (snd p) + s) 0 l.
Lemma lsum_app f l l' : lsum f (l ++ l') = lsum f l + lsum f l'.
Proof. unfold lsum. induction l as [|p l IH]; cbn [fold_right app]; [ring|]. rewrite IH. ring. Qed.
Lemma lsum_perm f l l' : Permutation l l' -> lsum f l = lsum f l'.
Proof. unfold lsum. induction 1; cbn [fold_right]; lra. Qed.
Lemma fl_sum_exact f t : fl_sum exact f t = lsum f (pixels t).
Proof. induction t as [i j|l IHl r IHr]; cbn [fl_sum pixels]; [cbn; ring|]. rewrite lsum_app, IHl, IHr. reflexivity. Qed.
Lemma lsum_row f i n : lsum f (map (pair i) (seq 0 n)) = rsum n (fun j => f i j).
Proof.
  induction n as [|n IH]; [reflexivity|]. rewrite seq_S, map_app, lsum_app, IH. cbn. ring.
Qed.
Lemma list_prod_app (l l' m : list nat) : list_prod (l ++ l') m = list_prod l m ++ list_prod l' m.
Proof. induction l as [|x l IH]; [reflexivity|]. cbn [list_prod app]. rewrite IH, app_assoc. reflexivity. Qed.
Lemma lsum_all f ny nx : lsum f (list_prod (seq 0 ny) (seq 0 nx)) = rsum2 ny nx f.
Proof.
  unfold rsum2. induction ny as [|n IH]; [reflexivity|]. rewrite seq_S, list_prod_app, lsum_app, IH. cbn [rsum list_prod]. rewrite app_nil_r. rewrite lsum_row. reflexivity.
Qed.
Lemma link_sum f t ny nx : Permutation (pixels t) (list_prod (seq 0 ny) (seq 0 nx)) -> fl_sum exact f t = rsum2 ny nx f.
Proof. intros P. rewrite fl_sum_exact, (lsum_perm f _ _ P). apply lsum_all. Qed.
Lemma link_power area field w t ny nx : Permutation (pixels t) (list_prod (seq 0 ny) (seq 0 nx)) ->
  fl_power exact w area field t = rsum2 ny nx (fun i j => fst (field i j) ^ 2 + snd (field i j) ^ 2) * area.
Proof. intros P. unfold fl_power. rewrite (link_sum _ t ny nx P). destruct w; reflexivity. Qed.
