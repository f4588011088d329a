(** C81: raw memory on GPUs. *)
From Verif Require Import Prelude PoolM PtrM GpuRawM GpuRawS GpuRawP GpuRawT.

(** Every call of every program is answered as the calls before it say
    (GpuRawS.answers): what is allocated, which bytes are read, how much memory
    is free, what the statistics show, and which calls throw. *)
Theorem C81_answers : forall mc cs s tr, rrun mc (r_start mc) [] cs = Ok (s, tr) -> map fst tr = rev cs /\ all_answered mc tr.
Proof. exact run_answers. Qed.
Print Assumptions C81_answers.

(** A call that obeys the rules (GpuRawS.allowed) never has undefined behaviour. *)
Theorem C81_defined : forall mc cs s tr c, rrun mc (r_start mc) [] cs = Ok (s, tr) -> allowed mc tr c ->
  exists s' r, rrun mc (r_start mc) [] (cs ++ [c]) = Ok (s', (c, r) :: tr).
Proof. exact run_next. Qed.
Print Assumptions C81_defined.

(** What is copied to a block is what is copied from it later, whatever happened
    before, and whatever is done to other blocks and devices in between. *)
Theorem C81_read_back : forall mc cs1 b off l k cs2 k2 s tr,
  Forall (leaves b) cs2 -> exists_dev mc k -> exists_dev mc k2 ->
  rrun mc (r_start mc) [] (cs1 ++ RTo b off l k :: cs2 ++ [RFrom b off (Z.of_nat (length l)) k2]) = Ok (s, tr) ->
  hd_error tr = Some (RFrom b off (Z.of_nat (length l)) k2, RBytes (map Some l)).
Proof. exact read_back. Qed.
Print Assumptions C81_read_back.

(** When every block has been released, no device has memory taken by blocks. *)
Theorem C81_released : forall mc cs s tr, rrun mc (r_start mc) [] cs = Ok (s, tr) ->
  (forall b, home tr b = None) -> forall k, taken mc tr k = 0.
Proof. exact released. Qed.
Print Assumptions C81_released.

(** With one device the statistics are that device's, as of the last update. *)
Theorem C81_statistics_one_device : forall mc cs s tr k r tr0, mc_devs mc = 1 ->
  rrun mc (r_start mc) [] (cs ++ [RStat k]) = Ok (s, (RStat k, r) :: tr) ->
  at_update tr = Some tr0 -> (k = 0 /\ r = RStats (figures mc tr0 0)) \/ (k <> 0 /\ r = RThrew).
Proof. exact stats_one_device. Qed.
Print Assumptions C81_statistics_one_device.

(** With more devices they are those of device k if it was the current device at
    the last update. *)
Theorem C81_statistics_current : forall mc cs s tr k m tr0,
  rrun mc (r_start mc) [] (cs ++ [RStat k]) = Ok (s, (RStat k, RStats m) :: tr) ->
  at_update tr = Some tr0 -> current mc tr0 = k -> m = figures mc tr0 k.
Proof. exact stats_of_current. Qed.
Print Assumptions C81_statistics_current.

(** What is shown as free and as in use makes the total shown, and the
    (unsigned) figures never wrap around. *)
Theorem C81_statistics_sum : forall mc cs s tr k m, (forall n, 0 <= mc_takes mc n) -> Forall sizes_ok cs ->
  rrun mc (r_start mc) [] (cs ++ [RStat k]) = Ok (s, (RStat k, RStats m) :: tr) ->
  0 <= ms_inuse m /\ ms_f m + ms_inuse m = ms_t m.
Proof. exact stats_sane. Qed.
Print Assumptions C81_statistics_sum.

(** Not so for a device that was not current: after an allocation on device 0 and
    one on device 1, the figures given for device 0 are those of device 1. *)
Theorem C81_statistics_refuted : exists s tr0,
  rrun two_gpus (r_start two_gpus) [] stats_demo = Ok (s, (RStat 0, RStats (MStats 1700 2000 300)) :: (RUpdate, RDone) :: tr0) /\
  figures two_gpus tr0 0 = MStats 900 1000 100.
Proof. exact stats_wrong. Qed.
Print Assumptions C81_statistics_refuted.

(** Two devices: a copy to device 0, from there to device 1 and back to the host;
    a failed request for memory selects the device all the same. *)
Definition gpu_demo : list rcall :=
  [RAlloc 0 8 0 true; RTo 0 2 [7; 8; 9] 0; RAlloc 1 4 1 true; RPeer 1 1 1 0 2 0 3; RSet 1 0 511 1 1; RFrom 1 0 4 1;
   RAlloc 2 5000 0 true; RUpdate; RStat 0; RStat 1; RStat 2; RFree (Some 0%nat) 0; RFrom 1 1 3 1; RFree (Some 1%nat) 1].
Example C81_hyps_met : exists s tr, rrun two_gpus (r_start two_gpus) [] gpu_demo = Ok (s, tr) /\
  map snd (rev tr) = [RDone; RDone; RDone; RDone; RDone; RBytes [Some 255; Some 7; Some 8; Some 9];
                      RThrew; RDone; RStats (MStats 992 1000 8); RStats (MStats 992 1000 8); RThrew;
                      RDone; RBytes [Some 7; Some 8; Some 9]; RDone] /\
  (forall b, home tr b = None).
Proof.
  eexists. eexists. split; [vm_compute; reflexivity|]. split; [vm_compute; reflexivity|].
  intros [|[|b]]; vm_compute; reflexivity.
Qed.
(** between copying to block 0 and reading it, block 1 may be written and released *)
Example C81_leaves_met : Forall (leaves 0) [RAlloc 1 4 1 true; RPeer 1 1 1 0 2 0 3; RFree (Some 1%nat) 1; RUpdate] /\
  exists s tr, rrun two_gpus (r_start two_gpus) []
    ([RAlloc 0 8 0 true] ++ RTo 0 2 [7; 8; 9] 0 :: [RAlloc 1 4 1 true; RPeer 1 1 1 0 2 0 3; RFree (Some 1%nat) 1; RUpdate] ++ [RFrom 0 2 3 0])
    = Ok (s, tr) /\ allowed two_gpus tr (RSet 0 0 1 8 0).
Proof.
  split; [repeat constructor; cbn; discriminate|]. eexists. eexists. split; [vm_compute; reflexivity|].
  intros _. exists 8. split; [vm_compute; reflexivity|lia].
Qed.
Example C81_one_device_met : exists s tr tr0,
  rrun (Machine 1 (fun _ => 100) (fun n => n)) (r_start (Machine 1 (fun _ => 100) (fun n => n))) [] ([RAlloc 0 10 0 true; ROther 0 5; RUpdate] ++ [RStat 0])
    = Ok (s, (RStat 0, RStats (MStats 85 100 15)) :: tr) /\ at_update tr = Some tr0.
Proof. eexists. eexists. eexists. split; vm_compute; reflexivity. Qed.
