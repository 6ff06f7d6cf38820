(** Versions and their order, independently of the tool. *)
From Verif Require Import Base.
From Coq Require Import NArith.

(** [decimal s n]: the text [s] is the number [n] in decimal digits. *)
Definition digit_is (c : ascii) (d : N) : Prop := (d < 10)%N /\ N_of_ascii c = (48 + d)%N.
Inductive decimal : bstr -> N -> Prop :=
| dec_one c d : digit_is c d -> decimal [c] d
| dec_more s n c d : decimal s n -> digit_is c d -> decimal (s ++ [c]) (10 * n + d)%N.

(** A version: major, minor and patch number. *)
Record version := { major : N; minor : N; patch : N }.
(** MAJOR, MAJOR.MINOR or MAJOR.MINOR.PATCH; the numbers left out are 0. *)
Inductive version_text : bstr -> version -> Prop :=
| vt_one a x : decimal a x -> version_text a {| major := x; minor := 0; patch := 0 |}
| vt_two a b x y : decimal a x -> decimal b y -> version_text (a ++ "."%char :: b) {| major := x; minor := y; patch := 0 |}
| vt_three a b c x y z : decimal a x -> decimal b y -> decimal c z ->
    version_text (a ++ "."%char :: b ++ "."%char :: c) {| major := x; minor := y; patch := z |}.

(** [v] is not newer than [w]. *)
Definition not_newer (v w : version) : Prop :=
  (major v < major w \/ major v = major w /\ (minor v < minor w \/ minor v = minor w /\ patch v <= patch w))%N.

(** Versions whose numbers have at most four digits (ten for the major number). *)
Definition usual (v : version) : Prop := (major v < 10000000000 /\ minor v < 10000 /\ patch v < 10000)%N.

(** The number that stands for a version in the build configuration. *)
Definition long_version (v : version) : Z := Z.of_N (major v * 100000000 + minor v * 10000 + patch v).
