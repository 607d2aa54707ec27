(** * NvModel: what a process is told about the GPUs

    Models python/xoscar/nvutils.py 252-359 ([_init_cp], [_init_nvml], [_init],
    [get_device_count], [_get_all_device_count]), 384-437 ([get_device_info]),
    516-616 (the NVML queries, [get_index_and_uuid]), 619-717
    ([get_compute_running_processes], [_running_process_matches],
    [get_cuda_context]) and the check that python/xoscar/backends/communication/ucx.py
    153-169 makes with them.

    The two NVIDIA libraries are not part of the repository.  What they answer is
    written down from their documentation: NVML numbers all GPUs of the machine
    ([gpus]); CUDA numbers them in its own order ([order], "fastest first" unless
    CUDA_DEVICE_ORDER says otherwise) and shows a process the ones listed in
    CUDA_VISIBLE_DEVICES up to the first entry that names none; it reads the variable
    when it is initialised ([cuInit]), and fails if no GPU is visible.

    Simplifications: text is ASCII; [int] of text takes spaces around, a sign and decimal
    digits (Python also takes underscores); an entry listed twice in CUDA_VISIBLE_DEVICES
    is shown twice (CUDA refuses it; the theorems that need it exclude it); failures of
    the libraries other than those named, temperatures, core counts and names of devices
    are left out; one process that does not fork (the initialisation is repeated in a
    forked child, 254 and 279). *)
From Coq Require Import List Bool Arith ZArith Ascii String.
From Verif Require Import PyStr.
Import ListNotations.
Open Scope list_scope.

Definition pid := nat.
(** A query for the processes that use a GPU is made in two steps (630, 642): how many there
    are at the first, and which at the second. *)
Record usage := mkUse { at_first : list pid; at_second : list pid }.
(** A GPU as NVML sees it.  [mig]: it is split (MIG mode) into numbered slices, [None] for a
    number without a slice. *)
Record gpu := mkGpu { g_uuid : text; mig : option (list (option usage)); g_use : usage }.
Record machine := mkMachine {
  gpus : list gpu;
  order : list nat;      (** CUDA's enumeration, as NVML numbers *)
  has_nvml : bool;       (** libnvidia-ml can be loaded *)
  has_cuda : bool }.     (** libcuda can be loaded *)

(** [int(s)]; [None]: ValueError *)
Fixpoint int_digits (acc : Z) (s : text) : option Z :=
  match s with
  | [] => Some acc
  | c :: r => let n := Z.of_nat (nat_of_ascii c) in
              if ((48 <=? n) && (n <=? 57))%Z then int_digits (10 * acc + (n - 48))%Z r else None
  end.
Definition digits (s : text) : option Z := match s with [] => None | _ => int_digits 0 s end.
Definition py_int (s : text) : option Z :=
  match strip s with
  | "-"%char :: r => match digits r with Some z => Some (- z)%Z | None => None end
  | "+"%char :: r => digits r
  | r => digits r
  end.

(** [l[z]] for the libraries: no negative numbers *)
Definition at_index {A} (l : list A) (z : Z) : option A := if (z <? 0)%Z then None else nth_error l (Z.to_nat z).
Fixpoint find_from {A} (f : A -> bool) (i : nat) (l : list A) : option nat :=
  match l with [] => None | x :: r => if f x then Some i else find_from f (S i) r end.
(** NVML: the number of the GPU with this UUID *)
Definition by_uuid (m : machine) (u : text) : option nat := find_from (fun g => text_eqb (g_uuid g) u) 0 (gpus m).

(** CUDA's reading of the variable: NVML numbers of the devices shown.  (CUDA also takes
    abbreviated UUIDs.) *)
Definition named (m : machine) (entry : text) : option nat :=
  match py_int entry with
  | Some z => at_index (order m) z
  | None => by_uuid m entry
  end.
Fixpoint shown (m : machine) (entries : list text) : list nat :=
  match entries with
  | [] => []
  | e :: r => match named m e with Some g => g :: shown m r | None => [] end
  end.
Definition cuda_visible (m : machine) (env : option text) : list nat :=
  match env with
  | None => order m
  | Some s => shown m (split (lit ",") s)
  end.

(** Line 174: [_cu_device_info], as far as it says which device is meant *)
Record info := mkInfo { i_index : Z; i_uuid : text }.

(** The module's variables (172, 183-186) and what libcuda remembers. *)
Record st := mkSt {
  env : option text;             (** CUDA_VISIBLE_DEVICES in [os.environ] *)
  cuda : option (list nat);      (** visible devices, since [cuInit] *)
  ready : bool;                  (** [_init_pid == os.getpid()] *)
  gpu_count : option nat;
  device_infos : list (Z * info) }.

Definition fresh_process (e : option text) : st := mkSt e None false None [].

(** Lines 252-324 *)
Definition init (m : machine) (s : st) : st :=
  if ready s then s
  else
    let vis := match cuda s with Some l => l | None => cuda_visible m (env s) end in
    let cuda' := if has_cuda m then Some vis else cuda s in
    let cuda_ok := has_cuda m && negb (match vis with [] => true | _ => false end) in
    mkSt (env s) cuda' (has_nvml m && cuda_ok) (gpu_count s) (device_infos s).

(** Lines 327-347; [None]: no NVML *)
Definition get_device_count (m : machine) (s : st) : st * option nat :=
  match gpu_count s with
  | Some n => (s, Some n)
  | None =>
      if has_nvml m then
        let n := match env s with
                 | Some v => let devices := strip v in
                             if text_eqb devices [] || text_eqb devices (lit "-1") then 0
                             else List.length (split (lit ",") devices)
                 | None => List.length (gpus m)
                 end in
        (mkSt (env s) (cuda s) (ready s) (Some n) (device_infos s), Some n)
      else (s, None)
  end.

Inductive answer (A : Type) := Ans (a : A) | NoLibrary | NVError | ValueError | IndexError.
Arguments Ans {A}. Arguments NoLibrary {A}. Arguments NVError {A}. Arguments ValueError {A}. Arguments IndexError {A}.

Fixpoint cached (l : list (Z * info)) (i : Z) : option info :=
  match l with [] => None | (j, x) :: r => if (j =? i)%Z then Some x else cached r i end.
(** [[int(s) for s in ...]] *)
Fixpoint ints (l : list text) : option (list Z) :=
  match l with
  | [] => Some []
  | x :: r => match py_int x, ints r with Some z, Some zs => Some (z :: zs) | _, _ => None end
  end.
(** Lines 384-437 *)
Definition get_device_info (m : machine) (s : st) (i : Z) : st * answer info :=
  match cached (device_infos s) i with
  | Some x => (s, Ans x)
  | None =>
      let s := init m s in
      if negb (ready s) then (s, NoLibrary)
      else match cuda s with
           | None => (s, NoLibrary)
           | Some vis =>
               match at_index vis i with
               | None => (s, NVError)                       (* cuDeviceGet *)
               | Some g =>
                   match nth_error (gpus m) g with
                   | None => (s, NVError)
                   | Some d =>
                       let give z := let x := mkInfo z (g_uuid d) in
                         (mkSt (env s) (cuda s) (ready s) (gpu_count s) ((i, x) :: device_infos s), Ans x) in
                       match env s with
                       | None => give i
                       | Some v =>
                           match ints (split (lit ",") v) with
                           | None => (s, ValueError)
                           | Some zs => match at_index zs i with Some z => give z | None => (s, IndexError) end
                           end
                       end
                   end
               end
           end
  end.

(** Lines 601-616.  The handle of a GPU is its number. *)
Definition get_index_and_uuid (m : machine) (device : text) : answer (nat * text) :=
  if negb (has_nvml m) then NoLibrary
  else
    let give g := match nth_error (gpus m) g with Some d => Ans (g, g_uuid d) | None => NVError end in
    match py_int device with
    | Some z => if (z <? 0)%Z then NVError else give (Z.to_nat z)
    | None => match by_uuid m device with Some g => give g | None => NVError end
    end.

(** Lines 619-656 *)
Definition get_compute_running_processes (u : usage) : answer (list pid) :=
  match at_first u with
  | [] => Ans []
  | _ => let count := 2 * List.length (at_first u) + 5 in
         if (List.length (at_second u) <=? count)%nat then Ans (at_second u) else NVError
  end.
(** Lines 659-670 *)
Definition running_process_matches (me : pid) (u : usage) : answer bool :=
  match get_compute_running_processes u with
  | Ans l => Ans (existsb (Nat.eqb me) l)
  | _ => NVError
  end.

(** [CudaDeviceInfo] and [CudaContext], 146-158 *)
Inductive context := NoContext | OnGpu (index : nat) (uuid : text) (slice : option nat).
(** Lines 690-708 *)
Fixpoint search_slices (me : pid) (found : nat -> context) (j : nat) (l : list (option usage)) : answer (option context) :=
  match l with
  | [] => Ans None
  | None :: r => search_slices me found (S j) r
  | Some u :: r => match running_process_matches me u with
                   | Ans true => Ans (Some (found j))
                   | Ans false => search_slices me found (S j) r
                   | _ => NVError
                   end
  end.
(** Lines 673-717 *)
Fixpoint search (me : pid) (i : nat) (l : list gpu) : answer context :=
  match l with
  | [] => Ans NoContext
  | g :: r =>
      match mig g with
      | Some slices => match search_slices me (fun j => OnGpu i (g_uuid g) (Some j)) 0 slices with
                       | Ans (Some c) => Ans c
                       | Ans None => search me (S i) r
                       | _ => NVError
                       end
      | None => match running_process_matches me (g_use g) with
                | Ans true => Ans (OnGpu i (g_uuid g) None)
                | Ans false => search me (S i) r
                | _ => NVError
                end
      end
  end.
Definition get_cuda_context (m : machine) (me : pid) (s : st) : st * answer context :=
  let s := init m s in
  if ready s then (s, search me 0 (gpus m)) else (s, Ans NoContext).

(** ucx.py 153-162: is a warning logged that the context is on the wrong device? *)
Definition warns (m : machine) (s : st) (created : context) : answer bool :=
  let first := hd [] (split (lit ",") (match env s with Some v => v | None => lit "0" end)) in
  match get_index_and_uuid m first with
  | Ans (_, u) => match created with
                  | OnGpu _ u' _ => Ans (negb (text_eqb u' u))
                  | NoContext => Ans false
                  end
  | _ => NVError
  end.

(** What a program does: it asks, and it may change its environment. *)
Inductive op := Count | Info (i : Z) | Context (me : pid) | SetVisible (v : option text).
Definition step (m : machine) (s : st) (o : op) : st :=
  match o with
  | Count => fst (get_device_count m s)
  | Info i => fst (get_device_info m s i)
  | Context me => fst (get_cuda_context m me s)
  | SetVisible v => mkSt v (cuda s) (ready s) (gpu_count s) (device_infos s)
  end.
Definition run (m : machine) (s : st) (os : list op) : st := fold_left (step m) os s.
