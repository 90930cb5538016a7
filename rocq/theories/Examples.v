(** Concrete instances of the parameters of the model, used to exhibit cases
    meeting the hypotheses of the theorems: exact rational arithmetic, both
    out-of-bounds modes. log and sqrt are not available on rationals; they are
    replaced by the identity, which matters to no example. *)
From Coq Require Import ZArith QArith List Bool.
From Verif Require Import Base.
Import ListNotations.
Open Scope Z_scope.

Definition qops : fops := {|
  F := Q;
  f0 := 0%Q; f1 := 1%Q; fhalf := (1 # 2)%Q; fnan := 0%Q;
  fofZ := inject_Z;
  fadd := fun a b => Qred (a + b); fsub := fun a b => Qred (a - b);
  fmul := fun a b => Qred (a * b); fdiv := fun a b => Qred (a / b);
  fneg := Qopp; flog := fun x => Qred (x - 1)%Q; flog1p := fun x => x; fsqrt := fun x => x;
  flt := fun a b => negb (Qle_bool b a); fle := Qle_bool;
  fcumsum := cumsum_from (fun a b => Qred (a + b)) 0%Q;
  fisfinite := fun _ => true
|}.

Definition zclip : zoob :=
  {| zmode := mkoob true 0; bmode := mkoob true false |}.
Definition qclip : foob qops := {| fmode := mkoob true (0%Q : @F qops) |}.
Definition zfill : zoob :=
  {| zmode := mkoob false 255; bmode := mkoob false true |}.
