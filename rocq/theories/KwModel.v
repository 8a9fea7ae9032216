(** The public methods of DMD and LCOS_SLM as they are called: positional and keyword arguments, defaults, and the dictionary of further
    options.  DmdModel.v starts after this has been sorted out. *)
From Coq Require Import Reals ZArith List Bool String.
From Coquelicot Require Import Complex.
From Verif Require Import Cx PyBase ProfileModel SlmModel LibModel DmdModel.
Import ListNotations.
Open Scope R_scope.
Open Scope string_scope.

(** A Python object as far as these methods look at it: whether it is None, the string it equals, the number it is in arithmetic, what
    tf.constant makes of it as an integer and as a float, and which of the arguments of profile_to_tensor it is.  [Err e]: that use raises e. *)
Record pyval := { v_none : bool; v_str : option string; v_num : res R; v_int : res Z; v_real : res R; v_obj : res parg }.
Definition py_int (z : Z) : pyval :=
  {| v_none := false; v_str := None; v_num := Ok (IZR z); v_int := Ok z; v_real := Ok (IZR z); v_obj := Ok (AConstR (T0 (IZR z))) |}.
Definition py_string (s : string) : pyval :=
  {| v_none := false; v_str := Some s; v_num := Err TypeError; v_int := Err TypeError; v_real := Err TypeError; v_obj := Err TypeError |}.
Definition py_none : pyval :=
  {| v_none := true; v_str := None; v_num := Err TypeError; v_int := Err ValueError; v_real := Err ValueError; v_obj := Err ValueError |}.
(** A dictionary of keyword arguments. *)
Definition dict := list (string * pyval).
Fixpoint find (n : string) (k : dict) : option pyval :=
  match k with [] => None | (a, v) :: r => if String.eqb a n then Some v else find n r end.
Definition without (n : string) (k : dict) : dict := filter (fun e => negb (String.eqb (fst e) n)) k.
(** Python's binding of a call to a signature (names with defaults, then **kwargs): the values of the parameters and the rest.  A parameter given
    twice, a missing one and a positional argument too many raise TypeError. *)
Fixpoint bind (params : list (string * option pyval)) (pos : list pyval) (k : dict) : res (list pyval * dict) :=
  match params, pos with
  | [], [] => Ok ([], k)
  | [], _ :: _ => Err TypeError
  | (n, _) :: ps, v :: vs =>
      match find n k with
      | Some _ => Err TypeError
      | None => let! (a, r) := bind ps vs k in Ok (v :: a, r)
      end
  | (n, default) :: ps, [] =>
      match find n k with
      | Some v => let! (a, r) := bind ps [] (without n k) in Ok (v :: a, r)
      | None => match default with
                | Some v => let! (a, r) := bind ps [] k in Ok (v :: a, r)
                | None => Err TypeError
                end
      end
  end.
(** A bound method: self is the first positional argument. *)
Definition bind_method (params : list (string * option pyval)) (pos : list pyval) (k : dict) : res (list pyval * dict) :=
  match find "self" k with Some _ => Err TypeError | None => bind params pos k end.

(** Signatures: slm.py:213, 230, 324-326, 487. *)
Definition sig_grating : list (string * option pyval) :=
  [("amp", Some (py_int 1)); ("phase_in", Some (py_int 0)); ("phase_out", Some (py_int 0)); ("method", Some (py_string "random"))].
Definition sig_patch : list (string * option pyval) :=
  [("i", None); ("j", None); ("amp", None); ("phase_in", None); ("phase_out", None); ("d", None); ("method", Some (py_string "random"))].
Definition sig_calc : list (string * option pyval) :=
  [("input_profile", None); ("target_profile", None); ("method", Some (py_string "random")); ("window", Some py_none)].
Definition sig_holo : list (string * option pyval) :=
  [("input_profile", None); ("target_amp_profile", None); ("method", Some (py_string "gs"))].
(** The parameters of calculate_dmd_grating and calculate_lcos_slm_hologram (_lib.py:41, 287); all are given explicitly by the callers, so an
    option of the same name raises TypeError. *)
Definition lib_grating_params : list string := ["amp"; "phase_in"; "phase_out"; "x"; "y"; "p"; "theta"; "method"; "negative_order"].
Definition lib_holo_params : list string := ["input_profile"; "target_amp_profile"; "method"].
Definition clash (params : list string) (k : dict) : bool := existsb (fun n => match find n k with Some _ => true | None => false end) params.

(** method == "...". *)
Definition is_str (v : pyval) (s : string) : bool := match v_str v with Some t => String.eqb t s | None => false end.
Definition method_of (v : pyval) : method :=
  if is_str v "ideal" then MIdeal else if is_str v "simple" then MSimple else if is_str v "random" then MRandom
  else if is_str v "ifta" then MIfta else MUnknown.
Definition lmethod_of (v : pyval) : lmethod := if is_str v "gs" then MGs else if is_str v "mraf" then MMraf else MLUnknown.
(** tf.constant(kwargs.get(n, default)). *)
Definition get_real (k : dict) (n : string) : res (option R) :=
  match find n k with Some v => let! r := v_real v in Ok (Some r) | None => Ok None end.
Definition get_int (k : dict) (n : string) : res (option Z) :=
  match find n k with Some v => let! z := v_int v in Ok (Some z) | None => Ok None end.
(** kwargs.get(n), used as it is. *)
Definition get_obj (k : dict) (n : string) : option parg :=
  match find n k with Some v => match v_obj v with Ok a => Some a | Err _ => None end | None => None end.
(** _lib.py:71-89: the options each method takes out of the dictionary. *)
Definition options (m : method) (k : dict) : res kwargs :=
  match m with
  | MRandom => let! r := get_real k "r" in Ok {| k_r := r; k_N := None; k_s := None; k_window := None; k_input := None |}
  | MIfta => let! N := get_int k "N" in
             let! s := get_real k "s" in
             Ok {| k_r := None; k_N := N; k_s := s; k_window := get_obj k "signal_window"; k_input := get_obj k "input_profile" |}
  | MIdeal | MSimple | MUnknown => Ok no_kwargs
  end.
(** profile_to_tensor of an object (slm.py:131-165). *)
Definition conv_r (h : heap) (s : slm) (v : pyval) (fourier : bool) : res (tensor R) := let! a := v_obj v in profile_to_tensor_r h s a fourier.
Definition conv_c (h : heap) (s : slm) (v : pyval) (fourier : bool) : res (tensor C) := let! a := v_obj v in profile_to_tensor_c h s a fourier.
(** slm.py:214-221, 255-267: the array of a grating. *)
Definition py_grating (h : heap) (d : dmd) (amp pin pout meth : pyval) (before : res unit) (k : dict) (u : nat -> nat -> R) : res dstate :=
  let s := d_slm d in
  let! amp := conv_r h s amp true in
  let! pin := conv_r h s pin true in
  let! pout := conv_r h s pout true in
  let! _ := before in
  let (x, y) := fourier_plane_grid s in
  let! _ := if clash lib_grating_params k then Err TypeError else Ok tt in
  let! kw := options (method_of meth) k in
  let! g := calculate_dmd_grating (method_of meth) (d_neg d) (tmap Fin amp) pin pout x y (d_p d) (d_theta d) kw
              (raw_tensor (k_input kw)) (raw_tensor (k_window kw)) u in
  to_dstate g.
(** slm.py:213-221. *)
Definition py_set_dmd_grating_state (h : heap) (d : dmd) (pos : list pyval) (k : dict) (u : nat -> nat -> R) : dmd * res unit :=
  match bind_method sig_grating pos k with
  | Ok ([amp; pin; pout; meth], k) =>
      match py_grating h d amp pin pout meth (Ok tt) k u with Ok st => (with_state d st, Ok tt) | Err e => (d, Err e) end
  | Ok _ => (d, Err EUnmodelled)
  | Err e => (d, Err e)
  end.
(** slm.py:230-268. *)
Definition py_circular_patch (h : heap) (d : dmd) (pos : list pyval) (k : dict) (u : nat -> nat -> R) : dmd * res unit :=
  match bind_method sig_patch pos k with
  | Ok ([i; j; amp; pin; pout; diam; meth], k) =>
      let s := d_slm d in
      let numbers := let! i := v_num i in let! j := v_num j in let! diam := v_num diam in Ok (i, j, diam) in
      match py_grating h d amp pin pout meth (rmap (fun _ => tt) numbers) k u, numbers with
      | Ok new, Ok (ci, cj, diam) =>
          let (ii, jj) := fourier_plane_pixel_grid s in
          let mask := fun i j => circular_mask ci cj diam (tget ii i j) (tget jj i j) in
          match masked_assign (d_state d) new mask (s_Ny s) (s_Nx s) with
          | Some st => (with_state d st, Ok tt)
          | None => (d, Err ETensorFlow)
          end
      | Err e, _ => (d, Err e)
      | _, Err e => (d, Err e)
      end
  | Ok _ => (d, Err EUnmodelled)
  | Err e => (d, Err e)
  end.
(** slm.py:324-376.  For "ifta" the dictionary gets input_profile and the converted signal_window before it is passed on. *)
Definition py_calculate_dmd_state (h : heap) (d : dmd) (pos : list pyval) (k : dict) (u : nat -> nat -> R) : dmd * res xr :=
  match bind_method sig_calc pos k with
  | Ok ([input; target; meth; window], k) =>
      let s := d_slm d in
      let new :=
        let! input := conv_c h s input true in
        let! target := conv_c h s target false in
        let! window := if v_none window then Ok None else (let! w := conv_c h s window true in Ok (Some w)) in
        let! (amp, pin, pout, one) := calc_amp_phase input target window in
        let (x, y) := fourier_plane_grid s in
        let! extra := if is_str meth "ifta"
                      then match find "signal_window" k with
                           | None => Err KeyError
                           | Some w => let! w := conv_c h s w false in Ok (Some (input, w))
                           end
                      else Ok None in
        let! _ := if clash lib_grating_params k then Err TypeError else Ok tt in
        let! kw := options (method_of meth) k in
        let! g := calculate_dmd_grating (method_of meth) (d_neg d) amp pin pout x y (d_p d) (d_theta d) kw
                    (option_map fst extra) (option_map snd extra) u in
        let! st := to_dstate g in
        Ok (st, one) in
      match new with
      | Err e => (d, Err e)
      | Ok (st, one) =>
          let d' := with_state d st in
          if Req_EM_T (scaling_factor s) 0 then (d', Err ZeroDivisionError)
          else (d', py_div (pixel_size s ^ 2 / scaling_factor s * INR (s_Nx s) * INR (s_Ny s)) one)
      end
  | Ok _ => (d, Err EUnmodelled)
  | Err e => (d, Err e)
  end.
(** _lib.py:308-319. *)
Definition loptions (m : lmethod) (k : dict) : res lkwargs :=
  match m with
  | MGs => let! N := get_int k "N" in Ok {| lk_N := N; lk_window := None; lk_mix := None |}
  | MMraf => let! N := get_int k "N" in
             let! b := get_real k "mixing_factor" in
             Ok {| lk_N := N; lk_window := get_obj k "signal_window"; lk_mix := b |}
  | MLUnknown => Ok {| lk_N := None; lk_window := None; lk_mix := None |}
  end.
(** slm.py:487-515. *)
Definition py_calculate_hologram (h : heap) (l : lcos) (pos : list pyval) (k : dict) (u : nat -> nat -> R) : lcos * res unit :=
  match bind_method sig_holo pos k with
  | Ok ([input; target; meth], k) =>
      let s := l_slm l in
      let new :=
        let! input := conv_c h s input true in
        let! target := conv_r h s target false in
        let! win := if is_str meth "mraf"
                    then match find "signal_window" k with
                         | None => Err KeyError
                         | Some w => let! w := conv_c h s w false in Ok (Some w)
                         end
                    else Ok None in
        let! _ := if clash lib_holo_params k then Err TypeError else Ok tt in
        let! kw := loptions (lmethod_of meth) k in
        calculate_lcos_hologram (lmethod_of meth) input target win kw u in
      match new with
      | Err e => (l, Err e)
      | Ok st => ({| l_slm := s; l_state := st |}, Ok tt)
      end
  | Ok _ => (l, Err EUnmodelled)
  | Err e => (l, Err e)
  end.
