*.nra.cache
.nra.cache
