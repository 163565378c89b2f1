(** * Tests of the model (not proofs of properties): the binary64 instance is
    run on the NBS-14 data of /repo/tests and compared with the reference
    values quoted there, with the tolerance 1e-4 used by those tests. *)
From Coq Require Import String Floats List ZArith Bool.
From Verif Require Import Base Num NpList NumF ModelCore ModelDev ModelMisc ModelRt.
Import ListNotations.

Definition dec (m : Z) (k : Z) : float := (ofZ m / ofZ (10 ^ k))%float.
Definition close_to (d r : float) : bool :=
  PrimFloat.ltb (PrimFloat.abs ((d - r) / r)) (dec 1 4).
Fixpoint all_close (ds rs : list float) : bool :=
  match ds, rs with
  | [], [] => true
  | d :: ds, r :: rs => close_to d r && all_close ds rs
  | _, _ => false
  end.
(** Deviations of a run agree with the references. *)
Definition agrees (r : res (@result float)) (refs : list float) : bool :=
  match r with Ok (_, devs, _, _) => all_close devs refs | Err _ => false end.

(** tests/nbs14/test_nbs14_10point.py:26-48 *)
Definition phase10 : list float :=
  map (fun z => dec z 5) [0; 10311111; 12322222; 15733333; 16644444; 4855555; -9633333; -222222; 11188889; 0]%Z.
Definition freq10 : list float := map ofZ [892; 809; 823; 798; 671; 644; 883; 903; 677]%Z.
Definition devfn := list float -> float -> string -> taus_arg float -> res (@result float).
Definition check10 (f : devfn) (refs : list float) : bool :=
  let taus := TList [ofZ 1; ofZ 2] in
  agrees (f phase10 (ofZ 1) "phase"%string taus) refs && agrees (f freq10 (ofZ 1) "freq"%string taus) refs.

Example nbs10_adev : check10 adev [dec 9122945 5; dec 1158082 4] = true. Proof. vm_compute. reflexivity. Qed.
Example nbs10_oadev : check10 oadev [dec 9122945 5; dec 8595287 5] = true. Proof. vm_compute. reflexivity. Qed.
Example nbs10_mdev : check10 mdev [dec 9122945 5; dec 7478849 5] = true. Proof. vm_compute. reflexivity. Qed.
Example nbs10_totdev : check10 totdev [dec 9122945 5; dec 9390379 5] = true. Proof. vm_compute. reflexivity. Qed.
Example nbs10_hdev : check10 hdev [dec 7080608 5; dec 1167980 4] = true. Proof. vm_compute. reflexivity. Qed.
Example nbs10_tdev : check10 tdev [dec 5267135 5; dec 8635831 5] = true. Proof. vm_compute. reflexivity. Qed.
Example nbs10_ohdev : check10 ohdev [dec 7080607 5; dec 8561487 5] = true. Proof. vm_compute. reflexivity. Qed.
Example nbs10_mtotdev : check10 mtotdev [dec 64509 3; dec 64794 3] = true. Proof. vm_compute. reflexivity. Qed.
Example nbs10_ttotdev : check10 ttotdev [dec 37244 3; dec 74818 3] = true. Proof. vm_compute. reflexivity. Qed.

(** tests/nbs14/test_nbs14_1000point.py:66-83 *)
Fixpoint lcg (n : nat) (s : Z) : list Z :=
  match n with O => [] | S k => s :: lcg k ((16807 * s) mod 2147483647)%Z end.
Definition freq1000 : list float := map (fun z => (ofZ z / ofZ 2147483647)%float) (lcg 1000 1234567890).
Example lcg_start : firstn 4 (lcg 1000 1234567890) = [1234567890; 395529916; 1209410747; 633705974]%Z.
Proof. vm_compute. reflexivity. Qed.
Definition check1000 (f : devfn) (taus : list Z) (refs : list float) : bool :=
  agrees (f freq1000 (ofZ 1) "freq"%string (TList (map ofZ taus))) refs &&
  match frequency2phase freq1000 (ofZ 1) with
  | Ok phase1000 => agrees (f phase1000 (ofZ 1) "phase"%string (TList (map ofZ taus))) refs
  | Err _ => false
  end.
Definition d3t := [1; 10; 100]%Z.

(** The long runs are evaluated at build time only ([vm_test] fails unless the
    check evaluates to true) and leave no trace in the compiled file, so that
    the independent checker need not replay them. *)
Ltac vm_test b := let v := eval vm_compute in b in lazymatch v with true => idtac end.

Goal True. (* nbs1000_adev *) vm_test (check1000 adev d3t [dec 2922319 7; dec 9965736 8; dec 3897804 8]). Abort.
Goal True. (* nbs1000_oadev *) vm_test (check1000 oadev d3t [dec 2922319 7; dec 9159953 8; dec 3241343 8]). Abort.
Goal True. (* nbs1000_mdev *) vm_test (check1000 mdev d3t [dec 2922319 7; dec 6172376 8; dec 2170921 8]). Abort.
Goal True. (* nbs1000_totdev *) vm_test (check1000 totdev d3t [dec 2922319 7; dec 9134743 8; dec 3406530 8]). Abort.
Goal True. (* nbs1000_hdev *) vm_test (check1000 hdev d3t [dec 2943883 7; dec 1052754 7; dec 3910860 8]). Abort.
Goal True. (* nbs1000_tdev *) vm_test (check1000 tdev d3t [dec 1687202 7; dec 3563623 7; dec 1253382 6]). Abort.
Goal True. (* nbs1000_ohdev *) vm_test (check1000 ohdev d3t [dec 2943883 7; dec 9581083 8; dec 3237638 8]). Abort.
Goal True. (* nbs1000_pdev *) vm_test (check1000 pdev [1; 2; 4; 8; 16; 32; 64; 128; 256]%Z
  [dec 29223187810675200 17; dec 21445233564252639 17; dec 15618112158618463 17;
   dec 11709745745448434 17; dec 6902958518983934 17; dec 4974970773039839 17;
   dec 3894741733071373 17; dec 3086239274137210 17; dec 1244741434133268 17]). Abort.
(** the test also asks for tau 100 (left out here: slow) *)
Goal True. (* nbs1000_theo1 *) vm_test (check1000 theo1 [10; 1000]%Z [dec 10757 5; dec 50524 7]). Abort.
(** tests/phasedat/phase_dat_htotdev_octave_nobias.txt *)
Goal True. (* nbs1000_htotdev *) vm_test (agrees (htotdev freq1000 (ofZ 1) "freq"%string (TList (map ofZ [1; 2; 4; 8; 16]%Z)))
  [dec 29439 5; dec 20247 5; dec 14216 5; dec 10795 5; dec 65102 6]). Abort.
Goal True. (* nbs1000_mtotdev *) vm_test (agrees (mtotdev freq1000 (ofZ 1) "freq"%string (TList (map ofZ [1; 10]%Z)))
  [dec 20664 5; dec 55529 6]). Abort.
(** PHASE.DAT is the integrated 1000-point record; tests/phasedat/phase_dat_mtie.txt,
    phase_dat_tierms.txt *)
Goal True. (* phasedat_mtie *) vm_test (check1000 mtie [1; 3; 7; 15; 31; 63; 127; 255; 511]%Z
  [dec 50597 5; dec 12984 4; dec 22922 4; dec 29949 4; dec 44550 4; dec 65989 4; dec 68061 4; dec 78205 4; dec 78205 4]). Abort.
Goal True. (* phasedat_tierms *) vm_test (check1000 tierms [1; 2; 3; 4; 5; 6; 7; 8; 9; 10; 11]%Z
  [dec 28832 5; dec 40240 5; dec 49390 5; dec 57044 5; dec 64195 5; dec 70066 5; dec 75338 5; dec 79644 5; dec 83728 5; dec 87588 5; dec 90905 5]). Abort.

(** tests/realtime/test_rt_nbs14_1k.py *)
Definition rt_check (ap : @cfg float -> @rt float -> float -> res rt) (refs : list float) : bool :=
  match frequency2phase freq1000 (ofZ 1) with
  | Ok ph => match run ap (mkcfg (ofZ 1) false []) (rt_init (mkcfg (ofZ 1) false []) [1; 10; 100]%nat) ph with
             | Ok s => all_close (rdev s) refs
             | Err _ => false
             end
  | Err _ => false
  end.
Goal True. (* rt_oadev *) vm_test (rt_check oadev_add_phase [dec 2922319 7; dec 9159953 8; dec 3241343 8]). Abort.
Goal True. (* rt_ohdev *) vm_test (rt_check ohdev_add_phase [dec 2943883 7; dec 9581083 8; dec 3237638 8]). Abort.
Goal True. (* rt_tdev *) vm_test (rt_check tdev_add_phase [dec 1687202 7; dec 3563623 7; dec 1253382 6]). Abort.
