(** Sharing of the arrays behind dmd_state (C101, C102). *)
From Coq Require Import Reals Lra ZArith Arith List Bool Lia.
From Verif Require Import PyBase ProfileModel SlmModel LibModel DmdModel SimExamples DmdSpec DmdExamples StoreModel StoreSpec StoreFacts StoreFacts2 StoreExamples.
Import ListNotations.
Open Scope R_scope.

(** As long as the program neither assigns dmd_state nor writes into arrays, every device has exactly the state its own calls give it, however the
    calls of all devices are interleaved and however many arrays are read out or copied. *)
Theorem C101_devices_do_not_interact : forall l k, Forall (fun a => tampers a = false) l -> device_of (acts empty_store l) k = fold_left (alone k) l None.
Proof. exact independent. Qed.
Print Assumptions C101_devices_do_not_interact.
(** Two devices: the patch on the second leaves the first fully on. *)
Example C101_case : option_map (fun s => cell_at s 0 0) (shown (acts empty_store [ANew 0 2 3 2 0 4 2 (/ 2) false; ANew 1 2 3 2 0 4 2 (/ 2) false; AOn 0; AGet 5 0;
    APatch 1 ex_heap 0 0 zero_phase zero_phase zero_phase 2 MSimple no_kwargs (fun _ _ => 0)]) 0) = Some (CBool true).
Proof. unfold shown. rewrite C101_devices_do_not_interact by (repeat constructor). reflexivity. Qed.

(** A pattern read from a device is not a snapshot: the next circular_patch changes it. *)
Theorem C102_read_pattern_is_a_snapshot_refuted : exists l v k a b, option_map (fun s => cell_at s 0 0) (held (acts empty_store (l ++ [AGet v k])) v) = Some a /\
  option_map (fun s => cell_at s 0 0) (held (acts empty_store (l ++ [AGet v k; dark_patch])) v) = Some b /\ a <> b.
Proof. exact alias_changes. Qed.
Print Assumptions C102_read_pattern_is_a_snapshot_refuted.
(** In general: until the device gets a new array, what was read shows whatever the device shows. *)
Theorem C102_read_pattern_follows_the_device : forall l0 l v k, Forall (fun a => renews k a = false /\ assigns v a = false) l -> device_of (acts empty_store l0) k <> None ->
  held (acts (acts empty_store l0) (AGet v k :: l)) v = shown (acts (acts empty_store l0) (AGet v k :: l)) k.
Proof. exact alias_follows. Qed.
Print Assumptions C102_read_pattern_follows_the_device.
(** All other methods of all devices leave arrays that were read alone. *)
Theorem C102_snapshot_without_patches : forall l0 l v, Forall (fun a => patches a = false /\ tampers a = false /\ assigns v a = false) l ->
  held (acts (acts empty_store l0) l) v = held (acts empty_store l0) v.
Proof. exact held_kept. Qed.
Print Assumptions C102_snapshot_without_patches.
(** A copy is a snapshot, patches included. *)
Theorem C102_copy_is_a_snapshot : forall l0 l v w k, Forall (fun a => tampers a = false /\ assigns v a = false) l -> device_of (acts empty_store l0) k <> None ->
  held (acts (acts empty_store l0) (AGet w k :: ACopy v w :: l)) v = shown (acts empty_store l0) k.
Proof. exact copy_kept. Qed.
Print Assumptions C102_copy_is_a_snapshot.
Example C102_case : option_map (fun s => cell_at s 0 0) (held (acts (acts empty_store prog) [AGet 1 0; ACopy 0 1; dark_patch]) 0) = Some (CBool true).
Proof. rewrite C102_copy_is_a_snapshot; [reflexivity|repeat constructor|rewrite prog_device; discriminate]. Qed.
(** Writing one element of an array read from a device changes that mirror of that device and nothing else. *)
Theorem C102_write_changes_one_mirror : forall l k v i j b a, Forall (fun a => tampers a = false) l -> shown (acts empty_store l) k = Some a ->
  (i < fst (state_shape a))%nat -> (j < snd (state_shape a))%nat ->
  exists a', shown (acts empty_store (l ++ [AGet v k; APoke v i j b])) k = Some a' /\
    state_shape a' = state_shape a /\ is_bool_state a' = is_bool_state a /\ cell_at a' i j = cell_as (is_bool_state a) (CBool b) /\
    (forall p q, (p, q) <> (i, j) -> cell_at a' p q = cell_at a p q) /\
    (forall k', k' <> k -> device_of (acts empty_store (l ++ [AGet v k; APoke v i j b])) k' = device_of (acts empty_store l) k').
Proof. exact poked. Qed.
Print Assumptions C102_write_changes_one_mirror.
(** Out of range (IndexError): no device changes. *)
Theorem C102_write_outside : forall l k v i j b a k', shown (acts empty_store l) k = Some a -> (fst (state_shape a) <= i \/ snd (state_shape a) <= j)%nat ->
  device_of (acts empty_store (l ++ [AGet v k; APoke v i j b])) k' = device_of (acts empty_store l) k'.
Proof. exact poked_outside. Qed.
Print Assumptions C102_write_outside.
Example C102_write_case : Forall (fun a => tampers a = false) [ANew 0 2 3 2 0 4 2 (/ 2) false; AOn 0] /\
  shown (acts empty_store [ANew 0 2 3 2 0 4 2 (/ 2) false; AOn 0]) 0 = Some (DBool 2 4 (fun _ _ => true)).
Proof. split; [repeat constructor|reflexivity]. Qed.
