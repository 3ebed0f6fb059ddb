M=[]
def m(file,definition,old,new,claim,**k): M.append(dict(file=file,definition=definition,old=old,new=new,claim=claim,**k))
T='TerrModel.v';O='OriModel.v'
m(T,'shifted','r ++ [v]','v :: r','C36: edges not formed')
m(T,'edges','vscale (-1) (fst p)','vscale 1 (fst p)','C36: sum instead of difference')
m(T,'middles','(vscale (/ 2) (snd p))','(snd p)','C36: edge middle wrong')
m(T,'half_row','vcross n e','vcross e n','C36: half-spaces point inwards')
m(T,'init_region','vunit (vcross (vsub p2 p1) (vsub p1 p0))','vunit (vcross (vsub p1 p0) (vsub p2 p1))','C36: normal on the other side: half-spaces exclude the polygon')
m(T,'init_region','(vscale (/ INR (length vs)) (vsum vs))','(vsum vs)','C36: reference point not averaged')
m(T,'init_region','(vunit a1) (vunit a2) (vunit (vcross a1 a2))','(vunit a1) (vunit a2) (vunit (vcross a2 a1))','C36: third row of the rotation flipped')
m(T,'init_region','let a2 := vsub p1 p2 in','let a2 := vsub p2 p1 in','C36: second edge flipped')
m(T,'add_region','(Z.of_nat (length t + 1) - 1)','(Z.of_nat (length t + 1))','C36: region number off by one')
m(T,'add_region','t ++ [r]','r :: t','C36: regions in reverse order')
m(O,'skewMatrix','1%nat, 2%nat => - vx v','1%nat, 2%nat => vx v','C37: sign in the skew matrix')
m(O,'qpositive','if Rlt_dec (qw q) 0 then','if Rlt_dec 0 (qw q) then','C37: sign normalised to the negative half')
m(O,'logarithmicMap','let norm := 2 * acos (qw q) in','let norm := acos (qw q) in','C37: half angle returned')
m(O,'logarithmicMap','vscale 2 (qvec q)','vscale 1 (qvec q)','C37: small angle factor')
m(O,'exponentialMap','(cos (vlen r / 2))','(cos (vlen r))','C37: full angle in the scalar part')
m(O,'exponentialMap','(/ 2 * vx r) (/ 2 * vy r) (/ 2 * vz r)','(vx r) (vy r) (vz r)','C37: small angle factor')
m(O,'exponentialMap','qpositive (qnormalize q)','qpositive q','C37: not normalised')
m(O,'toQuaternionMatrix','if conj then - skewMatrix','if negb conj then - skewMatrix','C37: conjugate swapped')
m(O,'jacobianQuaternion','O => - f1 * vget3 r j','O => f1 * vget3 r j','C37: sign of the scalar derivative')
m(O,'jacobianQuaternion','(2 * n ^ 3)','(2 * n ^ 2)','C37: power in factor2')
m(O,'jacobianAngular','false (S i) O * -1','false (S i) O','C37: sign of the first column')
m(O,'jacobianAngular','(exponentialMap r) false (S i) k','(exponentialMap r) true (S i) k','C37: conjugate matrix')
m(O,'toAngularVelocity','if body then vscale 2 (mulv (mtr','if negb body then vscale 2 (mulv (mtr','C37: frames swapped')
m(O,'fromAngularVelocity','if body then vscale (/ 2) (mulv (mtr m) omega)','if body then vscale (/ 2) (mulv m omega)','C37: not transposed in body coordinates')
m(O,'aligned','Rlt_dec (qdot c d) 0','Rlt_dec 0 (qdot c d)','C37: long way round')
m(O,'requiredAngularVelocity','qmul d (qinverse c)','qmul (qinverse c) d','C37: difference in the wrong frame')
m(O,'integrateAngularVelocity','(vscale dt rate)) current','(vscale dt rate)) (qnormalize current)','C37: result normalised (norm property)')
m(O,'integrateAngularVelocity','qmul (exponentialMap (vscale dt rate)) current','qmul current (exponentialMap (vscale dt rate))','C37: product in the wrong order')
m(O,'orientationError','qmul d (qinverse c)','qmul c (qinverse d)','C37: error with the wrong sign')
m(O,'qinverse','(- qx q) (- qy q) (- qz q)','(qx q) (qy q) (qz q)','C37: no conjugate')
