M=[]
def m(file,definition,old,new,claim,**k): M.append(dict(file=file,definition=definition,old=old,new=new,claim=claim,**k))
C='CntModel.v'
m(C,'contact_of','V3 x y z','V3 x z y','C30: coordinates swapped',tightened=['C30_plan_from_file'])
m(C,'contact_of','idToContactType (trunc ty)','idToContactType (trunc te)','C30: type from the terrain column')
m(C,'idToContactType','1%Z => FlatContact | 2%Z => FullContact','2%Z => FlatContact | 1%Z => FullContact','C30: contact types swapped')
