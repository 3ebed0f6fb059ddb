M=[]
def m(file,definition,old,new,claim,**k): M.append(dict(file=file,definition=definition,old=old,new=new,claim=claim,**k))
m('StgModel.v','vias','(vias y node m (S k))','(vias y node m k)','C47: first via point repeated',tightened=['C47_loaded (the via points of the specification are now defined independently)'])
