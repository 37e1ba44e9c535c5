(** Model of electrode/utils.py 401-508, cartesian_to_spherical_harmonics.
    Floats are reals; the second axis of the array (the points) is left out,
    every point is treated alike. *)
From Verif Require Import Base.
Open Scope R_scope.
Notation length := List.length.

(** 427: [8*sqrt(pi*(2*l+1))*factorial(l+1)/factorial(2*l+2)] *)
Definition sph_norm (l : Z) : R :=
  8 * sqrt (PI * (2 * IZR l + 1)) * INR (fact (Z.to_nat (l + 1))) / INR (fact (Z.to_nat (2 * l + 2))).
(** 424-508.  Unpacking an array of another length is a ValueError; above
    order 5 no branch is taken. *)
Definition cartesian_to_spherical_harmonics (c : list R) : res (list R) :=
  let l := ((Z.of_nat (length c) - 1) / 2)%Z in
  bind
    (if (l =? 0)%Z then Ok (map (fun x => x / 2) c)
     else if (l =? 1)%Z then
       match c with
       | [x; y; z] => Ok [- y; z; - x]
       | _ => Raise ValueError
       end
     else if (l =? 2)%Z then
       match c with
       | [xx; xy; xz; yy; yz] =>
         let zz := - xx - yy in
         Ok [2 * sqrt 3 * xy;
             - 2 * sqrt 3 * yz;
             - xx - yy + 2 * zz;
             - 2 * sqrt 3 * xz;
             sqrt 3 * (xx - yy)]
       | _ => Raise ValueError
       end
     else if (l =? 3)%Z then
       match c with
       | [xxy; xxz; yyz; xyy; xzz; yzz; xyz] =>
         let yyy := - xxy - yzz in
         let xxx := - xyy - xzz in
         let zzz := - xxz - yyz in
         Ok [sqrt 10 * (- 3 * xxy + yyy);
             4 * sqrt 15 * xyz;
             sqrt 6 * (xxy + yyy - 4 * yzz);
             2 * (- 3 * xxz - 3 * yyz + 2 * zzz);
             sqrt 6 * (xxx + xyy - 4 * xzz);
             2 * sqrt 15 * (xxz - yyz);
             sqrt 10 * (- xxx + 3 * xyy)]
       | _ => Raise ValueError
       end
     else if (l =? 4)%Z then
       match c with
       | [xxxy; xxxz; xxyy; xxzz; xyyy; xzzz; yyyz; yyzz; yzzz] =>
         let xxyz := - yyyz - yzzz in
         let xyzz := - xyyy - xxxy in
         let xxxx := - xxyy - xxzz in
         let yyyy := - xxyy - yyzz in
         let zzzz := - yyzz - xxzz in
         let xyyz := - xxxz - xzzz in
         Ok [4 * sqrt 35 * (xxxy - xyyy);
             2 * sqrt 70 * (- 3 * xxyz + yyyz);
             4 * sqrt 5 * (- xxxy - xyyy + 6 * xyzz);
             2 * sqrt 10 * (3 * xxyz + 3 * yyyz - 4 * yzzz);
             3 * xxxx + 6 * xxyy - 24 * xxzz + 3 * yyyy - 24 * yyzz + 8 * zzzz;
             2 * sqrt 10 * (3 * xxxz + 3 * xyyz - 4 * xzzz);
             2 * sqrt 5 * (- xxxx + 6 * xxzz + yyyy - 6 * yyzz);
             2 * sqrt 70 * (- xxxz + 3 * xyyz);
             sqrt 35 * (xxxx - 6 * xxyy + yyyy)]
       | _ => Raise ValueError
       end
     else if (l =? 5)%Z then
       match c with
       | [xxxyy; xxxyz; xxxzz; xxyyy; xxyyz; xxyzz; xxzzz; xyyyz; xyyzz; yyyzz; yyzzz] =>
         let xxxxy := - xxyyy - xxyzz in
         let yyyyy := - xxyyy - yyyzz in
         let xyzzz := - xxxyz - xyyyz in
         let yzzzz := - xxyzz - yyyzz in
         let xxxxz := - xxyyz - xxzzz in
         let yyyyz := - xxyyz - yyzzz in
         let zzzzz := - yyzzz - xxzzz in
         let xxxxx := - xxxyy - xxxzz in
         let xyyyy := - xxxyy - xyyzz in
         let xzzzz := - xyyzz - xxxzz in
         Ok [3 * sqrt 14 * (- 5 * xxxxy + 10 * xxyyy - yyyyy);
             24 * sqrt 35 * (xxxyz - xyyyz);
             sqrt 70 * (3 * xxxxy + 2 * xxyyy - 24 * xxyzz - yyyyy + 8 * yyyzz);
             8 * sqrt 105 * (- xxxyz - xyyyz + 2 * xyzzz);
             2 * sqrt 15 * (- xxxxy - 2 * xxyyy + 12 * xxyzz - yyyyy + 12 * yyyzz - 8 * yzzzz);
             2 * (15 * xxxxz + 30 * xxyyz - 40 * xxzzz + 15 * yyyyz - 40 * yyzzz + 8 * zzzzz);
             2 * sqrt 15 * (- xxxxx - 2 * xxxyy + 12 * xxxzz - xyyyy + 12 * xyyzz - 8 * xzzzz);
             4 * sqrt 105 * (- xxxxz + 2 * xxzzz + yyyyz - 2 * yyzzz);
             sqrt 70 * (xxxxx - 2 * xxxyy - 8 * xxxzz - 3 * xyyyy + 24 * xyyzz);
             6 * sqrt 35 * (xxxxz - 6 * xxyyz + yyyyz);
             3 * sqrt 14 * (- xxxxx + 10 * xxxyy - 5 * xyyyy)]
       | _ => Raise ValueError
       end
     else Ok c)
    (fun c => Ok (map (Rmult (sph_norm l)) c)).
