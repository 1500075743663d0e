*.nia.cache
.nia.cache
.lia.cache
