M=[]
def m(file,definition,old,new,claim,**k): M.append(dict(file=file,definition=definition,old=old,new=new,claim=claim,**k))
O='OriModel.v'
m(O,'orientationError','let (d, c) := aligned desired current in logarithmicMap (qmul d (qinverse c))','let (d, c) := aligned desired current in logarithmicMap (qmul c (qinverse d))','C37: error with the wrong sign')
m(O,'orientationError','let (d, c) := aligned desired current in logarithmicMap','let (d, c) := aligned current desired in logarithmicMap','C37: arguments swapped')
