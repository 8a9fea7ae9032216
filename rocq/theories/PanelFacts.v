(** Facts for C112. *)
From Coq Require Import Reals Lra ZArith Arith List Bool Lia.
From Coquelicot Require Import Complex.
From Verif Require Import Cx Sums PyBase ProfileModel SlmModel LibModel DmdModel SimSpec GridFacts DmdSpec DmdFacts DmdFacts2 OriginFacts PanelSpec.
Import ListNotations.
Open Scope R_scope.

Lemma row_const {A} (b : A) (nx c : nat) : map (fun _ => b) (seq c nx) = repeat b nx.
Proof. revert c. induction nx as [|nx IH]; intros c; [reflexivity|]. cbn [seq map repeat]. f_equal. apply IH. Qed.
Lemma rows_const {A} (b : A) (nx ny c : nat) : concat (map (fun _ => map (fun _ => b) (seq 0 nx)) (seq c ny)) = repeat b (ny * nx).
Proof.
  revert c. induction ny as [|ny IH]; intros c; [reflexivity|]. cbn [seq map concat Nat.mul]. rewrite repeat_app, (IH (S c)). f_equal. apply row_const.
Qed.
Lemma flatten_const ny nx b : flatten ny nx (fun _ _ => b) = repeat b (ny * nx).
Proof. exact (rows_const b nx ny 0). Qed.
Lemma packbits_const k b : packbits_n k (repeat b (8 * k)) = repeat (if b then 255 else 0)%Z k.
Proof.
  induction k as [|k IH]; [reflexivity|]. replace (8 * S k)%nat with (8 + 8 * k)%nat by lia. rewrite repeat_app. cbn [packbits_n].
  cbn [repeat app firstn skipn]. fold (repeat b). rewrite IH. cbn [repeat]. f_equal. destruct b; reflexivity.
Qed.
Lemma pack_const d ny nx k b : d_state d = DBool ny nx (fun _ _ => b) -> (ny * nx = 8 * k)%nat ->
  pack_dmd_state d = Ok (repeat (if b then 255 else 0)%Z k).
Proof.
  intros E H. unfold pack_dmd_state. rewrite E. f_equal. unfold packbits. rewrite flatten_length, flatten_const, H.
  replace ((8 * k + 7) / 8)%nat with k; [apply packbits_const|]. apply (Nat.div_unique _ 8 k 7); lia.
Qed.

Definition panel_ok (wl fl per th : R) (d : dmd) (p : panel) : Prop :=
  state_shape (d_state d) = (down p, across p) /\
  (forall i j, cell_at (d_state d) i j = CBool false) /\
  grid_is (fourier_plane_grid (d_slm d)) (down p) (across p) (fun _ j => panel_x p j) (fun i _ => panel_y p i) /\
  pack_dmd_state (set_dmd_state_on d) = Ok (repeat 255%Z (across p * down p / 8)) /\
  pack_dmd_state (set_dmd_state_off d) = Ok (repeat 0%Z (across p * down p / 8)) /\
  (per <> 0 -> first_order_origin d = (Fin (wl * fl / (per * pitch p) * cos th), Fin (wl * fl / (per * pitch p) * sin th))).

Lemma new_panel wl fl per th nx ny ps neg p q : across p = nx -> down p = ny -> pitch p = ps -> ps <> 0 -> nx = (8 * q)%nat ->
  panel_ok wl fl per th (dmd_new wl fl per th nx ny ps neg) p.
Proof.
  intros E1 E2 E3 P Q. unfold panel_ok. rewrite E1, E2, E3.
  assert (Hk : (ny * nx = 8 * (nx * ny / 8))%nat).
  { clear E1. subst nx. replace (8 * q * ny)%nat with ((q * ny) * 8)%nat by lia. rewrite Nat.div_mul by lia. lia. }
  split; [reflexivity|]. split; [reflexivity|]. split; [|split; [|split]].
  - refine (grid_is_ext _ _ _ _ _ _ _ (grid_mirrors _) _). intros i j _ _. unfold mirror_x, mirror_y, panel_x, panel_y. rewrite E1, E2, E3. split; reflexivity.
  - exact (pack_const (set_dmd_state_on (dmd_new wl fl per th nx ny ps neg)) ny nx _ true eq_refl Hk).
  - exact (pack_const (set_dmd_state_off (dmd_new wl fl per th nx ny ps neg)) ny nx _ false eq_refl Hk).
  - intros Hp. rewrite origin_fin by (cbn; apply Rmult_integral_contrapositive; split; assumption).
    unfold origin_of, scaling_factor. cbn. f_equal; f_equal; field; split; assumption.
Qed.
Lemma built_in dev p : In (dev, p) panels -> forall wl fl per th neg, panel_ok wl fl per th (dev wl fl per th neg) p.
Proof.
  intros H wl fl per th neg. unfold panels in H. destruct H as [H|[H|[H|[]]]]; injection H as <- <-.
  - apply (new_panel wl fl per th 1920 1080 _ neg _ 240); [reflexivity|reflexivity|unfold pitch, micro; cbn [pitch_nm]; lra|unfold micro; lra|reflexivity].
  - apply (new_panel wl fl per th 1024 768 _ neg _ 128); [reflexivity|reflexivity|unfold pitch, micro; cbn [pitch_nm]; lra|unfold micro; lra|reflexivity].
  - apply (new_panel wl fl per th (20 * 128) (10 * 160) _ neg _ 320); [reflexivity|reflexivity|unfold pitch, micro; cbn [pitch_nm]; lra|unfold micro; lra|reflexivity].
Qed.
Lemma built_in_lcos wl fl : (exists f, l_state (PLUTO_2 wl fl) = LComplex (down pluto) (across pluto) f /\ forall i j, f i j = RtoC 0) /\
  grid_is (fourier_plane_grid (l_slm (PLUTO_2 wl fl))) (down pluto) (across pluto) (fun _ j => panel_x pluto j) (fun i _ => panel_y pluto i).
Proof.
  split.
  - exists (fun _ _ => RtoC 0). split; reflexivity.
  - refine (grid_is_ext _ _ _ _ _ _ _ (grid_mirrors _) _). intros i j _ _. unfold mirror_x, mirror_y, panel_x, panel_y.
    cbn [PLUTO_2 l_slm lcos_new s_Nx s_Ny pixel_size across down pluto].
    replace (pitch pluto) with (8 * micro) by (unfold pitch, micro; cbn [pluto pitch_nm]; lra). split; reflexivity.
Qed.
