(** A pattern read from a DMD changes with the next patch. *)
From Coq Require Import Reals Lra ZArith Arith List Bool Lia.
From Verif Require Import PyBase ProfileModel SlmModel LibModel DmdModel SimExamples DmdSpec DmdFacts2 DmdThms DmdExamples StoreModel StoreSpec StoreFacts.
Import ListNotations.
Open Scope R_scope.

Definition prog : list action := [ANew 0 2 3 2 0 4 2 (/ 2) false; AOn 0].
(** A patch of amplitude 0: all mirrors of the disc off. *)
Definition dark_patch : action := APatch 0 ex_heap 0 0 zero_phase zero_phase zero_phase 2 MSimple no_kwargs (fun _ _ => 0).
Lemma prog_device : device_of (acts empty_store prog) 0 = Some (set_dmd_state_on ex4).
Proof. rewrite independent by (unfold prog; repeat constructor). reflexivity. Qed.
Lemma dark_patch_cell : exists d', circular_patch ex_heap (set_dmd_state_on ex4) 0 0 zero_phase zero_phase zero_phase 2 MSimple no_kwargs (fun _ _ => 0) = (d', Ok tt) /\
  cell_at (d_state d') 0 0 = CBool false /\ is_bool_state (d_state d') = true.
Proof.
  set (d := set_dmd_state_on ex4). assert (R0 := reads_const ex_heap (d_slm d) 0). assert (Hp : d_p d <> 0) by (cbn; lra).
  destruct (set_simple ex_heap d zero_phase zero_phase zero_phase _ _ _ R0 R0 R0 Hp no_kwargs (fun _ _ => 0)) as (d2 & g & E & Ed & VG).
  assert (S2 : state_shape (d_state d2) = (s_Ny (d_slm d), s_Nx (d_slm d))) by (rewrite Ed; reflexivity).
  destruct (patch_ok ex_heap d 0 0 zero_phase zero_phase zero_phase 2 MSimple no_kwargs (fun _ _ => 0) d2 E eq_refl S2) as (d' & P).
  exists d'. split; [exact P|]. destruct (patch_spec _ _ _ _ _ _ _ _ _ _ _ _ P) as (d3 & E3 & _ & B & _ & _ & VP). rewrite E in E3. injection E3 as <-.
  split; [|exact B]. destruct (VP 0%nat 0%nat) as (VP1 & _); [cbn; lia|cbn; lia|]. rewrite VP1.
  - rewrite Ed. cbn [with_state d_state cell_at is_bool_state d set_dmd_state_on all_mirrors]. cbn [cell_as]. f_equal.
    destruct (g 0%nat 0%nat) eqn:G; [|reflexivity]. apply VG in G; [lra|cbn; lia|cbn; lia].
  - unfold pixel_distance. cbn [INR]. replace ((0 - 0) ^ 2 + (0 - 0) ^ 2) with 0 by ring. rewrite sqrt_0, Rabs_pos_eq; lra.
Qed.
Lemma alias_changes : exists l v k a b, option_map (fun s => cell_at s 0 0) (held (acts empty_store (l ++ [AGet v k])) v) = Some a /\
  option_map (fun s => cell_at s 0 0) (held (acts empty_store (l ++ [AGet v k; dark_patch])) v) = Some b /\ a <> b.
Proof.
  exists prog, 0%nat, 0%nat, (CBool true), (CBool false). split; [reflexivity|]. split; [|discriminate].
  unfold acts. rewrite fold_left_app. fold (acts empty_store prog). fold (acts (acts empty_store prog) [AGet 0 0; dark_patch]).
  rewrite alias_follows; [|repeat constructor|rewrite prog_device; discriminate].
  replace (acts (acts empty_store prog) [AGet 0 0; dark_patch]) with (acts empty_store (prog ++ [AGet 0 0; dark_patch])) by (unfold acts; now rewrite fold_left_app).
  unfold shown. rewrite independent by (unfold prog, dark_patch; repeat constructor). cbn [prog app fold_left alone dark_patch Nat.eqb option_map].
  destruct dark_patch_cell as (d' & P & Q & _). change (fst (do_call (dmd_new 2 3 2 0 4 2 (/ 2) false) COn)) with (set_dmd_state_on ex4). cbn [do_call]. rewrite P. cbn [fst]. now rewrite Q.
Qed.
