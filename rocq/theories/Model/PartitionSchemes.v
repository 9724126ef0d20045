(** * zones_convolver/PartitionSchemes.h and .cpp

    The tables, verbatim (transcribed mechanically). *)
From Verif.Model Require Import Base Partitioning.
Local Open Scope Z_scope.

(** PartitionSchemes.cpp:5-83 *)
Definition kGarciaResults16 : list scheme := [
  {| ps_ir := 32; ps_layout := [{| pl_size := 1; pl_num := 2 |}] |};
  {| ps_ir := 64; ps_layout := [{| pl_size := 1; pl_num := 4 |}] |};
  {| ps_ir := 128; ps_layout := [{| pl_size := 1; pl_num := 8 |}] |};
  {| ps_ir := 256; ps_layout := [{| pl_size := 1; pl_num := 16 |}] |};
  {| ps_ir := 512; ps_layout := [{| pl_size := 1; pl_num := 8 |}; {| pl_size := 4; pl_num := 6 |}] |};
  {| ps_ir := 1024; ps_layout := [{| pl_size := 1; pl_num := 8 |}; {| pl_size := 4; pl_num := 14 |}] |};
  {| ps_ir := 2048; ps_layout := [{| pl_size := 1; pl_num := 16 |}; {| pl_size := 8; pl_num := 14 |}] |};
  {| ps_ir := 4096; ps_layout := [{| pl_size := 1; pl_num := 8 |}; {| pl_size := 4; pl_num := 6 |}; {| pl_size := 16; pl_num := 14 |}] |};
  {| ps_ir := 8192; ps_layout := [{| pl_size := 1; pl_num := 8 |}; {| pl_size := 4; pl_num := 14 |}; {| pl_size := 32; pl_num := 14 |}] |};
  {| ps_ir := 16384; ps_layout := [{| pl_size := 1; pl_num := 16 |}; {| pl_size := 8; pl_num := 14 |}; {| pl_size := 64; pl_num := 14 |}] |};
  {| ps_ir := 32768; ps_layout := [{| pl_size := 1; pl_num := 8 |}; {| pl_size := 4; pl_num := 6 |}; {| pl_size := 16; pl_num := 14 |}; {| pl_size := 128; pl_num := 14 |}] |} ].

(** PartitionSchemes.cpp:84-162 *)
Definition kGarciaResults32 : list scheme := [
  {| ps_ir := 64; ps_layout := [{| pl_size := 1; pl_num := 2 |}] |};
  {| ps_ir := 128; ps_layout := [{| pl_size := 1; pl_num := 4 |}] |};
  {| ps_ir := 256; ps_layout := [{| pl_size := 1; pl_num := 8 |}] |};
  {| ps_ir := 512; ps_layout := [{| pl_size := 1; pl_num := 16 |}] |};
  {| ps_ir := 1024; ps_layout := [{| pl_size := 1; pl_num := 8 |}; {| pl_size := 4; pl_num := 6 |}] |};
  {| ps_ir := 2048; ps_layout := [{| pl_size := 1; pl_num := 8 |}; {| pl_size := 4; pl_num := 14 |}] |};
  {| ps_ir := 4096; ps_layout := [{| pl_size := 1; pl_num := 16 |}; {| pl_size := 8; pl_num := 14 |}] |};
  {| ps_ir := 8192; ps_layout := [{| pl_size := 1; pl_num := 8 |}; {| pl_size := 4; pl_num := 6 |}; {| pl_size := 16; pl_num := 14 |}] |};
  {| ps_ir := 16384; ps_layout := [{| pl_size := 1; pl_num := 8 |}; {| pl_size := 4; pl_num := 14 |}; {| pl_size := 32; pl_num := 14 |}] |};
  {| ps_ir := 32768; ps_layout := [{| pl_size := 1; pl_num := 16 |}; {| pl_size := 8; pl_num := 14 |}; {| pl_size := 64; pl_num := 14 |}] |};
  {| ps_ir := 65536; ps_layout := [{| pl_size := 1; pl_num := 8 |}; {| pl_size := 4; pl_num := 6 |}; {| pl_size := 16; pl_num := 14 |}; {| pl_size := 128; pl_num := 14 |}] |} ].

(** PartitionSchemes.cpp:163-240 *)
Definition kGarciaResults64 : list scheme := [
  {| ps_ir := 128; ps_layout := [{| pl_size := 1; pl_num := 2 |}] |};
  {| ps_ir := 256; ps_layout := [{| pl_size := 1; pl_num := 4 |}] |};
  {| ps_ir := 512; ps_layout := [{| pl_size := 1; pl_num := 8 |}] |};
  {| ps_ir := 1024; ps_layout := [{| pl_size := 1; pl_num := 16 |}] |};
  {| ps_ir := 2048; ps_layout := [{| pl_size := 1; pl_num := 8 |}; {| pl_size := 4; pl_num := 6 |}] |};
  {| ps_ir := 4096; ps_layout := [{| pl_size := 1; pl_num := 8 |}; {| pl_size := 4; pl_num := 14 |}] |};
  {| ps_ir := 8192; ps_layout := [{| pl_size := 1; pl_num := 16 |}; {| pl_size := 8; pl_num := 14 |}] |};
  {| ps_ir := 16384; ps_layout := [{| pl_size := 1; pl_num := 8 |}; {| pl_size := 4; pl_num := 6 |}; {| pl_size := 16; pl_num := 14 |}] |};
  {| ps_ir := 32768; ps_layout := [{| pl_size := 1; pl_num := 8 |}; {| pl_size := 4; pl_num := 14 |}; {| pl_size := 32; pl_num := 14 |}] |};
  {| ps_ir := 65536; ps_layout := [{| pl_size := 1; pl_num := 16 |}; {| pl_size := 8; pl_num := 14 |}; {| pl_size := 64; pl_num := 14 |}] |};
  {| ps_ir := 131072; ps_layout := [{| pl_size := 1; pl_num := 16 |}; {| pl_size := 8; pl_num := 14 |}; {| pl_size := 64; pl_num := 30 |}] |} ].

(** PartitionSchemes.cpp:241-317 *)
Definition kGarciaResults128 : list scheme := [
  {| ps_ir := 256; ps_layout := [{| pl_size := 1; pl_num := 2 |}] |};
  {| ps_ir := 512; ps_layout := [{| pl_size := 1; pl_num := 4 |}] |};
  {| ps_ir := 1024; ps_layout := [{| pl_size := 1; pl_num := 8 |}] |};
  {| ps_ir := 2048; ps_layout := [{| pl_size := 1; pl_num := 16 |}] |};
  {| ps_ir := 4096; ps_layout := [{| pl_size := 1; pl_num := 8 |}; {| pl_size := 4; pl_num := 6 |}] |};
  {| ps_ir := 8192; ps_layout := [{| pl_size := 1; pl_num := 8 |}; {| pl_size := 4; pl_num := 14 |}] |};
  {| ps_ir := 16384; ps_layout := [{| pl_size := 1; pl_num := 16 |}; {| pl_size := 8; pl_num := 14 |}] |};
  {| ps_ir := 32768; ps_layout := [{| pl_size := 1; pl_num := 16 |}; {| pl_size := 8; pl_num := 30 |}] |};
  {| ps_ir := 65536; ps_layout := [{| pl_size := 1; pl_num := 8 |}; {| pl_size := 4; pl_num := 14 |}; {| pl_size := 32; pl_num := 14 |}] |};
  {| ps_ir := 131072; ps_layout := [{| pl_size := 1; pl_num := 16 |}; {| pl_size := 8; pl_num := 14 |}; {| pl_size := 64; pl_num := 14 |}] |};
  {| ps_ir := 262144; ps_layout := [{| pl_size := 1; pl_num := 16 |}; {| pl_size := 8; pl_num := 14 |}; {| pl_size := 64; pl_num := 30 |}] |} ].

(** PartitionSchemes.cpp:318-393 *)
Definition kGarciaResults256 : list scheme := [
  {| ps_ir := 512; ps_layout := [{| pl_size := 1; pl_num := 2 |}] |};
  {| ps_ir := 1024; ps_layout := [{| pl_size := 1; pl_num := 4 |}] |};
  {| ps_ir := 2048; ps_layout := [{| pl_size := 1; pl_num := 8 |}] |};
  {| ps_ir := 4096; ps_layout := [{| pl_size := 1; pl_num := 16 |}] |};
  {| ps_ir := 8192; ps_layout := [{| pl_size := 1; pl_num := 32 |}] |};
  {| ps_ir := 16384; ps_layout := [{| pl_size := 1; pl_num := 8 |}; {| pl_size := 4; pl_num := 14 |}] |};
  {| ps_ir := 32768; ps_layout := [{| pl_size := 1; pl_num := 16 |}; {| pl_size := 8; pl_num := 14 |}] |};
  {| ps_ir := 65536; ps_layout := [{| pl_size := 1; pl_num := 16 |}; {| pl_size := 8; pl_num := 30 |}] |};
  {| ps_ir := 131072; ps_layout := [{| pl_size := 1; pl_num := 8 |}; {| pl_size := 4; pl_num := 14 |}; {| pl_size := 32; pl_num := 14 |}] |};
  {| ps_ir := 262144; ps_layout := [{| pl_size := 1; pl_num := 16 |}; {| pl_size := 8; pl_num := 14 |}; {| pl_size := 64; pl_num := 14 |}] |};
  {| ps_ir := 524288; ps_layout := [{| pl_size := 1; pl_num := 16 |}; {| pl_size := 8; pl_num := 14 |}; {| pl_size := 64; pl_num := 30 |}] |} ].

(** PartitionSchemes.cpp:394-469 *)
Definition kGarciaResults512 : list scheme := [
  {| ps_ir := 1024; ps_layout := [{| pl_size := 1; pl_num := 2 |}] |};
  {| ps_ir := 2048; ps_layout := [{| pl_size := 1; pl_num := 4 |}] |};
  {| ps_ir := 4096; ps_layout := [{| pl_size := 1; pl_num := 8 |}] |};
  {| ps_ir := 8192; ps_layout := [{| pl_size := 1; pl_num := 16 |}] |};
  {| ps_ir := 16384; ps_layout := [{| pl_size := 1; pl_num := 32 |}] |};
  {| ps_ir := 32768; ps_layout := [{| pl_size := 1; pl_num := 8 |}; {| pl_size := 4; pl_num := 14 |}] |};
  {| ps_ir := 65536; ps_layout := [{| pl_size := 1; pl_num := 16 |}; {| pl_size := 8; pl_num := 14 |}] |};
  {| ps_ir := 131072; ps_layout := [{| pl_size := 1; pl_num := 16 |}; {| pl_size := 8; pl_num := 30 |}] |};
  {| ps_ir := 262144; ps_layout := [{| pl_size := 1; pl_num := 8 |}; {| pl_size := 4; pl_num := 14 |}; {| pl_size := 32; pl_num := 14 |}] |};
  {| ps_ir := 524288; ps_layout := [{| pl_size := 1; pl_num := 16 |}; {| pl_size := 8; pl_num := 14 |}; {| pl_size := 64; pl_num := 14 |}] |};
  {| ps_ir := 1048576; ps_layout := [{| pl_size := 1; pl_num := 16 |}; {| pl_size := 8; pl_num := 14 |}; {| pl_size := 64; pl_num := 30 |}] |} ].

(** PartitionSchemes.cpp:470-545 *)
Definition kGarciaResults1024 : list scheme := [
  {| ps_ir := 2048; ps_layout := [{| pl_size := 1; pl_num := 2 |}] |};
  {| ps_ir := 4096; ps_layout := [{| pl_size := 1; pl_num := 4 |}] |};
  {| ps_ir := 8192; ps_layout := [{| pl_size := 1; pl_num := 8 |}] |};
  {| ps_ir := 16384; ps_layout := [{| pl_size := 1; pl_num := 16 |}] |};
  {| ps_ir := 32768; ps_layout := [{| pl_size := 1; pl_num := 32 |}] |};
  {| ps_ir := 65536; ps_layout := [{| pl_size := 1; pl_num := 8 |}; {| pl_size := 4; pl_num := 14 |}] |};
  {| ps_ir := 131072; ps_layout := [{| pl_size := 1; pl_num := 16 |}; {| pl_size := 8; pl_num := 14 |}] |};
  {| ps_ir := 262144; ps_layout := [{| pl_size := 1; pl_num := 16 |}; {| pl_size := 8; pl_num := 30 |}] |};
  {| ps_ir := 524288; ps_layout := [{| pl_size := 1; pl_num := 8 |}; {| pl_size := 4; pl_num := 14 |}; {| pl_size := 32; pl_num := 14 |}] |};
  {| ps_ir := 1048576; ps_layout := [{| pl_size := 1; pl_num := 16 |}; {| pl_size := 8; pl_num := 14 |}; {| pl_size := 64; pl_num := 14 |}] |};
  {| ps_ir := 2097152; ps_layout := [{| pl_size := 1; pl_num := 16 |}; {| pl_size := 8; pl_num := 14 |}; {| pl_size := 64; pl_num := 30 |}] |} ].

(** PartitionSchemes.cpp:546-621 *)
Definition kGarciaResults2048 : list scheme := [
  {| ps_ir := 4096; ps_layout := [{| pl_size := 1; pl_num := 2 |}] |};
  {| ps_ir := 8192; ps_layout := [{| pl_size := 1; pl_num := 4 |}] |};
  {| ps_ir := 16384; ps_layout := [{| pl_size := 1; pl_num := 8 |}] |};
  {| ps_ir := 32768; ps_layout := [{| pl_size := 1; pl_num := 16 |}] |};
  {| ps_ir := 65536; ps_layout := [{| pl_size := 1; pl_num := 32 |}] |};
  {| ps_ir := 131072; ps_layout := [{| pl_size := 1; pl_num := 8 |}; {| pl_size := 4; pl_num := 14 |}] |};
  {| ps_ir := 262144; ps_layout := [{| pl_size := 1; pl_num := 16 |}; {| pl_size := 8; pl_num := 14 |}] |};
  {| ps_ir := 524288; ps_layout := [{| pl_size := 1; pl_num := 16 |}; {| pl_size := 8; pl_num := 30 |}] |};
  {| ps_ir := 1048576; ps_layout := [{| pl_size := 1; pl_num := 8 |}; {| pl_size := 4; pl_num := 14 |}; {| pl_size := 32; pl_num := 14 |}] |};
  {| ps_ir := 2097152; ps_layout := [{| pl_size := 1; pl_num := 16 |}; {| pl_size := 8; pl_num := 14 |}; {| pl_size := 64; pl_num := 14 |}] |};
  {| ps_ir := 4194304; ps_layout := [{| pl_size := 1; pl_num := 16 |}; {| pl_size := 8; pl_num := 14 |}; {| pl_size := 64; pl_num := 30 |}] |} ].

(** PartitionSchemes.cpp:622-696 *)
Definition kGarciaResults4096 : list scheme := [
  {| ps_ir := 8192; ps_layout := [{| pl_size := 1; pl_num := 2 |}] |};
  {| ps_ir := 16384; ps_layout := [{| pl_size := 1; pl_num := 4 |}] |};
  {| ps_ir := 32768; ps_layout := [{| pl_size := 1; pl_num := 8 |}] |};
  {| ps_ir := 65536; ps_layout := [{| pl_size := 1; pl_num := 16 |}] |};
  {| ps_ir := 131072; ps_layout := [{| pl_size := 1; pl_num := 32 |}] |};
  {| ps_ir := 262144; ps_layout := [{| pl_size := 1; pl_num := 8 |}; {| pl_size := 4; pl_num := 14 |}] |};
  {| ps_ir := 524288; ps_layout := [{| pl_size := 1; pl_num := 16 |}; {| pl_size := 8; pl_num := 14 |}] |};
  {| ps_ir := 1048576; ps_layout := [{| pl_size := 1; pl_num := 16 |}; {| pl_size := 8; pl_num := 30 |}] |};
  {| ps_ir := 2097152; ps_layout := [{| pl_size := 1; pl_num := 32 |}; {| pl_size := 16; pl_num := 30 |}] |};
  {| ps_ir := 4194304; ps_layout := [{| pl_size := 1; pl_num := 16 |}; {| pl_size := 8; pl_num := 14 |}; {| pl_size := 64; pl_num := 14 |}] |};
  {| ps_ir := 8388608; ps_layout := [{| pl_size := 1; pl_num := 16 |}; {| pl_size := 8; pl_num := 14 |}; {| pl_size := 64; pl_num := 30 |}] |} ].

(** PartitionSchemes.h:17-27 *)
Definition kGarciaResults : list (Z * list scheme) := [
  (16, kGarciaResults16);
  (32, kGarciaResults32);
  (64, kGarciaResults64);
  (128, kGarciaResults128);
  (256, kGarciaResults256);
  (512, kGarciaResults512);
  (1024, kGarciaResults1024);
  (2048, kGarciaResults2048);
  (4096, kGarciaResults4096) ].
