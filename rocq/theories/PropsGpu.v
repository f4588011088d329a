(** C57: field assignment on a GPU. *)
From Verif Require Import Prelude WindowM GhostM FieldM FieldS MaskM NeboM NeboS NeboE NeboF ParM ParS GpuM GpuS GpuB GpuE.

(** f <<= e: every interleaving of the kernel's threads finishes, without
    failure or data race, with f = e on every point the operands determine, and
    memory is what the assignment on the CPU leaves ... *)
Theorem C57_gpu_assign : forall V vadd vmul n (h : heap V) f e,
  operands_ok V n h e -> destination_ok V n h f -> alias_ok V f e -> singles_apart V f e -> covers_extra V f e ->
  (exists p, region V n f e p) -> (forall p, region V n f e p -> valid_cell n f p) ->
  gpu_runs V vadd vmul h f e true (region V n f e) /\ gpu_like_cpu V vadd vmul h f e true.
Proof. exact gpu_assign_all. Qed.
Print Assumptions C57_gpu_assign.
(** ... and the same for interior_assign. *)
Theorem C57_gpu_interior : forall V vadd vmul n (h : heap V) f e,
  operands_ok V n h e -> destination_ok V n h f -> alias_ok V f e -> singles_apart V f e ->
  (forall p, interior_cell n f p -> expr_known V n e p) ->
  gpu_runs V vadd vmul h f e false (interior_cell n f) /\ gpu_like_cpu V vadd vmul h f e false.
Proof. exact gpu_interior. Qed.
Print Assumptions C57_gpu_interior.
(** In general the columns reached are those of the window f had before, rounded
    up to whole blocks; all points are assigned if and only if they suffice. *)
Theorem C57_gpu_columns : forall V vadd vmul n (h : heap V) f e,
  operands_ok V n h e -> destination_ok V n h f -> alias_ok V f e -> singles_apart V f e -> covers_extra V f e ->
  (exists p, region V n f e p) ->
  gpu_runs V vadd vmul h f e true (reached f (region V n f e)) /\
  ((forall p, region V n f e p -> reached f (region V n f e) p) -> gpu_like_cpu V vadd vmul h f e true).
Proof. exact gpu_assign_any. Qed.
Print Assumptions C57_gpu_columns.
(** So with reduced valid ghosts points can be left out that the CPU assigns. *)
Theorem C57_gpu_reduced_refuted : exists n (h : heap Z) f e p,
  operands_ok Z n h e /\ destination_ok Z n h f /\ alias_ok Z f e /\ singles_apart Z f e /\ covers_extra Z f e /\ region Z n f e p /\
  exists N, forall fuel, (N <= fuel)%nat -> exists threads, gpu_threads Z Z.add Z.mul fuel true f e = Ok threads /\
    (exists st, kreach (Kern h threads) st /\ kdone st) /\
    forall st, kreach (Kern h threads) st -> kdone st -> value Z (kheap st) f p <> denote Z Z.add Z.mul h e p.
Proof. exact r_refuted. Qed.
Print Assumptions C57_gpu_reduced_refuted.
(** A single value assigned from itself: threads race. *)
Theorem C57_gpu_single_refuted : exists (h : heap Z) f e,
  operands_ok Z (IV 1 1 1) h e /\ destination_ok Z (IV 1 1 1) h f /\ alias_ok Z f e /\ covers_extra Z f e /\ region Z (IV 1 1 1) f e iv_zero /\
  forall fuel, (1 <= fuel)%nat -> exists threads st, gpu_threads Z Z.add Z.mul fuel true f e = Ok threads /\
    kreach (Kern h threads) st /\ ~ krace_free st.
Proof. exact s_refuted. Qed.
Print Assumptions C57_gpu_single_refuted.
(** Nothing is launched for a read-only destination. *)
Theorem C57_gpu_readonly : forall V vadd vmul fuel ug f (e : expr V), freadonly f = true ->
  forall t, gpu_threads V vadd vmul fuel ug f e <> Ok t.
Proof. exact gpu_readonly. Qed.
Print Assumptions C57_gpu_readonly.
(** The assignment runs on the destination's own device, if everything it reads
    is there, and otherwise throws. *)
Theorem C57_gpu_device : forall V has mhas home (e : expr V) d,
  gpu_dispatch V has mhas home e = Ok d <-> d = home /\ home <> OtherDevice /\ accessible V has mhas e home.
Proof. exact dispatch_ok. Qed.
Print Assumptions C57_gpu_device.
Theorem C57_gpu_device_throws : forall V has mhas home (e : expr V),
  (forall d, gpu_dispatch V has mhas home e <> Ok d) -> gpu_dispatch V has mhas home e = Throw.
Proof. exact dispatch_else. Qed.
Print Assumptions C57_gpu_device_throws.

Example C57_hyps_met :
  operands_ok Z xdim xheap xe /\ destination_ok Z xdim xheap xf /\ alias_ok Z xf xe /\ singles_apart Z xf xe /\ covers_extra Z xf xe /\
  region Z xdim xf xe (IV 3 1 0) /\ (forall p, region Z xdim xf xe p -> valid_cell xdim xf p) /\
  (exists p, region Z rdim rf re p /\ ~ valid_cell rdim rf p) /\
  (forall p, interior_cell xdim xf p -> expr_known Z xdim xe p) /\
  accessible Z (fun g _ => Nat.leb (fbuf g) 3) (fun _ _ => true) xe (CudaGpu 1) /\
  ~ accessible Z (fun g _ => Nat.leb (fbuf g) 2) (fun _ _ => true) xe (CudaGpu 1).
Proof.
  split; [exact x_operands|]. split; [exact x_destination|]. split; [exact x_alias|].
  split; [intros g I; cbn in I; destruct I as [<-|[]]; discriminate|]. split; [exact x_covers|]. split; [exact x_region|].
  split; [intros p (A & _); exact A|].
  split; [exists (IV 16 0 0); split; [apply r_region; cbn; lia|unfold valid_cell, reach, in_region; cbn; lia]|].
  split; [exact x_interior|]. split.
  - split; [|split]; [|reflexivity|].
    + intros g t I. cbn in I. destruct I as [E|[E|[E|[E|[]]]]]; injection E as <- <-; reflexivity.
    + intros g I. cbn in I. destruct I as [<-|[]]; reflexivity.
  - intros (_ & _ & C). specialize (C xv (or_introl eq_refl)). discriminate.
Qed.
