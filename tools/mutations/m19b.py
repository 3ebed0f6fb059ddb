M=[]
def m(file,definition,old,new,claim,**k): M.append(dict(file=file,definition=definition,old=old,new=new,claim=claim,**k))
m('MkoModel.v','no_init','(p_com st) false','(p_com st) true','C61: gains after initialisation',tightened=['C61_motion'])
