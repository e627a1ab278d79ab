(** Model of package predicates (/repo/predicates/*.go). *)
From Coq Require Import ZArith QArith Bool.
From Verif Require Import Base Arith M_r3.

(* predicates/util.go:3  untyped constant, exact *)
Definition epsilonQ : Q := 11102230246251565 # (10 ^ 32).
(* predicates/insphere.go:8  untyped constant expression: exact arithmetic,
   rounded once when used as a float64 *)
Definition isperrboundAQ : Q := (16 + 224 * epsilonQ) * epsilonQ.

Section Pred.
Context {A : Arith}.
Notation "a +. b" := (fadd A a b) (at level 50, left associativity).
Notation "a -. b" := (fsub A a b) (at level 50, left associativity).
Notation "a *. b" := (fmul A a b) (at level 40, left associativity).
Notation "a <. b" := (flt A a b) (at level 70).
Notation abs := (fabs A).

(* predicates/orient3d.go:5-19 *)
Definition orient3dfast (a b c d : vec A) : A :=
  let adx := vx a -. vx d in
  let bdx := vx b -. vx d in
  let cdx := vx c -. vx d in
  let ady := vy a -. vy d in
  let bdy := vy b -. vy d in
  let cdy := vy c -. vy d in
  let adz := vz a -. vz d in
  let bdz := vz b -. vz d in
  let cdz := vz c -. vz d in
  adx *. (bdy *. cdz -. bdz *. cdy) +.
  bdx *. (cdy *. adz -. cdz *. ady) +.
  cdx *. (ady *. bdz -. adz *. bdy).

(* predicates/insphere.go:11-43 *)
Definition InSphereFast (pa pb pc pd pe : vec A) : A :=
  let aex := vx pa -. vx pe in
  let bex := vx pb -. vx pe in
  let cex := vx pc -. vx pe in
  let dex := vx pd -. vx pe in
  let aey := vy pa -. vy pe in
  let bey := vy pb -. vy pe in
  let cey := vy pc -. vy pe in
  let dey := vy pd -. vy pe in
  let aez := vz pa -. vz pe in
  let bez := vz pb -. vz pe in
  let cez := vz pc -. vz pe in
  let dez := vz pd -. vz pe in
  let ab := aex *. bey -. bex *. aey in
  let bc := bex *. cey -. cex *. bey in
  let cd := cex *. dey -. dex *. cey in
  let da := dex *. aey -. aex *. dey in
  let ac := aex *. cey -. cex *. aey in
  let bd := bex *. dey -. dex *. bey in
  let abc := aez *. bc -. bez *. ac +. cez *. ab in
  let bcd := bez *. cd -. cez *. bd +. dez *. bc in
  let cda := cez *. da +. dez *. ac +. aez *. cd in
  let dab := dez *. ab +. aez *. bd +. bez *. da in
  let alift := aex *. aex +. aey *. aey +. aez *. aez in
  let blift := bex *. bex +. bey *. bey +. bez *. bez in
  let clift := cex *. cex +. cey *. cey +. cez *. cez in
  let dlift := dex *. dex +. dey *. dey +. dez *. dez in
  (clift *. dab -. dlift *. abc) +. (alift *. bcd -. blift *. cda).

(* predicates/insphere.go:118-120 *)
Definition inSphereAdapt : A := fofQ A 0.

(* predicates/insphere.go:45-116 *)
Definition inSphere (ax ay az bx by' bz cx cy cz dx dy dz ex ey ez : A) : A :=
  let aex := ax -. ex in
  let bex := bx -. ex in
  let cex := cx -. ex in
  let dex := dx -. ex in
  let aey := ay -. ey in
  let bey := by' -. ey in
  let cey := cy -. ey in
  let dey := dy -. ey in
  let aez := az -. ez in
  let bez := bz -. ez in
  let cez := cz -. ez in
  let dez := dz -. ez in
  let aexbey := aex *. bey in
  let bexaey := bex *. aey in
  let ab := aexbey -. bexaey in
  let bexcey := bex *. cey in
  let cexbey := cex *. bey in
  let bc := bexcey -. cexbey in
  let cexdey := cex *. dey in
  let dexcey := dex *. cey in
  let cd := cexdey -. dexcey in
  let dexaey := dex *. aey in
  let aexdey := aex *. dey in
  let da := dexaey -. aexdey in
  let aexcey := aex *. cey in
  let cexaey := cex *. aey in
  let ac := aexcey -. cexaey in
  let bexdey := bex *. dey in
  let dexbey := dex *. bey in
  let bd := bexdey -. dexbey in
  let abc := aez *. bc -. bez *. ac +. cez *. ab in
  let bcd := bez *. cd -. cez *. bd +. dez *. bc in
  let cda := cez *. da +. dez *. ac +. aez *. cd in
  let dab := dez *. ab +. aez *. bd +. bez *. da in
  let alift := aex *. aex +. aey *. aey +. aez *. aez in
  let blift := bex *. bex +. bey *. bey +. bez *. bez in
  let clift := cex *. cex +. cey *. cey +. cez *. cez in
  let dlift := dex *. dex +. dey *. dey +. dez *. dez in
  let det := (clift *. dab -. dlift *. abc) +. (alift *. bcd -. blift *. cda) in
  let aezplus := abs aez in
  let bezplus := abs bez in
  let cezplus := abs cez in
  let dezplus := abs dez in
  let aexbeyplus := abs aexbey in
  let bexaeyplus := abs bexaey in
  let bexceyplus := abs bexcey in
  let cexbeyplus := abs cexbey in
  let cexdeyplus := abs cexdey in
  let dexceyplus := abs dexcey in
  let dexaeyplus := abs dexaey in
  let aexdeyplus := abs aexdey in
  let aexceyplus := abs aexcey in
  let cexaeyplus := abs cexaey in
  let bexdeyplus := abs bexdey in
  let dexbeyplus := abs dexbey in
  let permanent :=
    ((cexdeyplus +. dexceyplus) *. bezplus +. (dexbeyplus +. bexdeyplus) *. cezplus +. (bexceyplus +. cexbeyplus) *. dezplus) *. alift +.
    ((dexaeyplus +. aexdeyplus) *. cezplus +. (aexceyplus +. cexaeyplus) *. dezplus +. (cexdeyplus +. dexceyplus) *. aezplus) *. blift +.
    ((aexbeyplus +. bexaeyplus) *. dezplus +. (bexdeyplus +. dexbeyplus) *. aezplus +. (dexaeyplus +. aexdeyplus) *. bezplus) *. clift +.
    ((bexceyplus +. cexbeyplus) *. aezplus +. (cexaeyplus +. aexceyplus) *. bezplus +. (aexbeyplus +. bexaeyplus) *. cezplus) *. dlift in
  let errbound := fofQ A isperrboundAQ *. permanent in
  if (errbound <. det) || (errbound <. fneg A det) then det
  else fneg A inSphereAdapt.
End Pred.

(* predicates/orient3d.go is unexported; meshing has its own copy (see M_meshing). *)
